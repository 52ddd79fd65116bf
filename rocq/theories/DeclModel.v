(** Model of how annotations of libraries are declared and take effect:
    [core/ipyflow/annotations/compiler.py] lines 176-376,
    [core/ipyflow/line_magics.py] lines 545-556 and
    [core/ipyflow/tracing/ipyflow_tracer.py] lines 819-821.

    Names, modules, objects and handlers are numbers.  Left out: how a function
    of an annotation is compiled to a handler (AnnoModel). *)
From Coq Require Import List Arith Bool.
From Verif Require Import Base.
Import ListNotations.

(** A function of an annotation: the names it is for (lines 157-173) and the
    handler it is compiled to; [None]: compiling raises [ValueError] or
    [TypeError]. *)
Record fnspec := mkF { f_names : list nat; f_handler : option nat }.

(** A class of an annotation: its name and the functions in its body. *)
Record clspec := mkCl { c_name : nat; c_funs : list fnspec }.

(** The statements of a file of annotations, lines 286-312.  The list of
    modules: [get_modules_from_decorators].  A string (lines 239-283) raises if
    it has no second line or its header cannot be parsed; it is passed over if
    the header is no comparison of versions; otherwise the comparison counts. *)
Inductive decl :=
| DClass (mods : list nat) (c : clspec)
| DFun (mods : list nat) (f : fnspec)
| DRaise
| DSkip
| DWhen (b : bool) (ds : list decl).

(** [REGISTERED_CLASS_SPECS], [REGISTERED_FUNCTION_SPECS], [sys.modules],
    [REGISTERED_HANDLER_BY_METHOD], [REGISTERED_HANDLER_BY_FUNCTION]. *)
Record st := mkS {
  classes : dict (list clspec);
  functions : dict (list fnspec);
  loaded : list nat;
  by_method : nat -> nat -> option nat;
  by_function : nat -> option nat
}.

(** [getattr(module, name, None)] and [getattr(clazz, name, None)]; they do not
    change (simplification). *)
Record world := mkW { attr : nat -> nat -> option nat; cattr : nat -> nat -> option nat }.

Definition listed {V} (d : dict (list V)) (k : nat) : list V :=
  match dget d k with Some l => l | None => [] end.

(** [d.setdefault(k, []).append(v)] *)
Definition push {V} (d : dict (list V)) (k : nat) (v : V) : dict (list V) :=
  dset d k (listed d k ++ [v]).

(** Lines 211 and 301-303: the set of the modules of the decorators, or the name
    of the file. *)
Definition mods_or (mods : list nat) (file : nat) : list nat :=
  match supd [] mods with [] => [file] | l => l end.

(** Lines 286-312, one statement, with 239-283.  What was registered before an
    exception stays. *)
Fixpoint reg1 (file : nat) (d : decl) (s : st) : st * res (list nat) :=
  match d with
  | DClass mods c =>
      (mkS (fold_left (fun x m => push x m c) (mods_or mods file) (classes s))
           (functions s) (loaded s) (by_method s) (by_function s), Ok (mods_or mods file))
  | DFun mods f =>
      (mkS (classes s) (fold_left (fun x m => push x m f) (mods_or mods file) (functions s))
           (loaded s) (by_method s) (by_function s), Ok (mods_or mods file))
  | DRaise => (s, Err ValueError)
  | DSkip => (s, Ok [file])
  | DWhen b ds =>
      if b then
        let (s1, r) :=
          (fix go (ds : list decl) (s : st) : st * res (list nat) :=
             match ds with
             | [] => (s, Ok [])
             | d :: ds =>
                 let (s1, r) := reg1 file d s in
                 match r with
                 | Err x => (s1, Err x)
                 | Ok ms => let (s2, q) := go ds s1 in
                            (s2, match q with Ok ns => Ok (supd ms ns) | Err x => Err x end)
                 end
             end) ds s in
        (s1, match r with Ok ms => Ok (supd [file] ms) | Err x => Err x end)
      else (s, Ok [file])
  end.

(** Lines 286-312, [register_annotations_from_source]. *)
Fixpoint reg (file : nat) (ds : list decl) (s : st) : st * res (list nat) :=
  match ds with
  | [] => (s, Ok [])
  | d :: ds =>
      let (s1, r) := reg1 file d s in
      match r with
      | Err x => (s1, Err x)
      | Ok ms => let (s2, q) := reg file ds s1 in
                 (s2, match q with Ok ns => Ok (supd ms ns) | Err x => Err x end)
      end
  end.

(** Lines 223-237; 176-191 for the functions of a class. *)
Definition compile_functions (fs : list fnspec) : dict nat :=
  fold_left (fun d f =>
               match f_handler f with
               | None => d
               | Some h => fold_left (fun d n => dset d n h) (f_names f) d
               end) fs [].

(** Lines 214-220. *)
Definition compile_classes (cs : list clspec) : dict (dict nat) :=
  fold_left (fun d c => dset d (c_name c) (compile_functions (c_funs c))) cs [].

Definition set_function (o h : nat) (s : st) : st :=
  mkS (classes s) (functions s) (loaded s) (by_method s)
      (fun g => if g =? o then Some h else by_function s g).

Definition set_method (c n h : nat) (s : st) : st :=
  mkS (classes s) (functions s) (loaded s)
      (fun c' n' => if (c' =? c) && (n' =? n) then Some h else by_method s c' n')
      (by_function s).

(** Lines 350-354. *)
Definition put_method (w : world) (c : nat) (s : st) (nh : nat * nat) : st :=
  let s1 := set_method c (fst nh) (snd nh) s in
  match cattr w c (fst nh) with
  | Some o => set_function o (snd nh) s1
  | None => s1
  end.

(** Lines 346-354. *)
Definition put_class (w : world) (m : nat) (s : st) (cd : nat * dict nat) : st :=
  match attr w m (fst cd) with
  | None => s
  | Some c => fold_left (put_method w c) (snd cd) s
  end.

(** Lines 355-358. *)
Definition put_function (w : world) (m : nat) (s : st) (nh : nat * nat) : st :=
  match attr w m (fst nh) with
  | None => s
  | Some o => set_function o (snd nh) s
  end.

(** Lines 339-358, [compile_and_register_handlers_for_module]. *)
Definition compile (w : world) (m : nat) (s : st) : st :=
  fold_left (put_function w m) (compile_functions (listed (functions s) m))
    (fold_left (put_class w m) (compile_classes (listed (classes s) m)) s).

(** Lines 362-370: the files of a directory, in the order of [os.listdir]. *)
Fixpoint reg_files (fs : list (nat * list decl)) (s : st) : st * res (list nat) :=
  match fs with
  | [] => (s, Ok [])
  | (file, ds) :: fs =>
      let (s1, r) := reg file ds s in
      match r with
      | Err x => (s1, Err x)
      | Ok ms => let (s2, q) := reg_files fs s1 in
                 (s2, match q with Ok ns => Ok (supd ms ns) | Err x => Err x end)
      end
  end.

(** Lines 371-376. *)
Definition compile_loaded (w : world) (ms : list nat) (s : st) : st :=
  fold_left (fun s m => if memb m (loaded s) then compile w m s else s) ms s.

(** What happens in a session.  [Import]: ipyflow_tracer.py 819-821; [Quiet]:
    an import the tracer does not see; [Dir] and [File]: line_magics.py 545-556
    and annotations/__init__.py 29. *)
Inductive event :=
| Import (m : nat)
| Quiet (m : nat)
| Dir (fs : list (nat * list decl))
| File (file : nat) (ds : list decl).

Definition load (m : nat) (s : st) : st :=
  mkS (classes s) (functions s) (sadd m (loaded s)) (by_method s) (by_function s).

Definition step (w : world) (s : st) (e : event) : st :=
  match e with
  | Import m => compile w m (load m s)
  | Quiet m => load m s
  | Dir fs =>
      let (s1, r) := reg_files fs s in
      match r with Ok ms => compile_loaded w ms s1 | Err _ => s1 end
  | File file ds => fst (reg file ds s)
  end.

Definition start : st := mkS [] [] [] (fun _ _ => None) (fun _ => None).

Definition run (w : world) (es : list event) : st := fold_left (step w) es start.
