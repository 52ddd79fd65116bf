(** What C103 means. *)
From Coq Require Import List Arith Bool.
From Verif Require Import Base DeclModel.
Import ListNotations.

(** The declarations in a file that count, flattened. *)
Fixpoint active (d : decl) : list decl :=
  match d with
  | DWhen true ds => flat_map active ds
  | DWhen false _ => []
  | _ => [d]
  end.

Definition is_raise (d : decl) : bool := match d with DRaise => true | _ => false end.

(** Nothing in the file raises. *)
Definition clean (ds : list decl) : Prop :=
  forall d, In d (flat_map active ds) -> is_raise d = false.

(** What a file says about a module. *)
Definition about (m : nat) (mods : list nat) (file : nat) : bool :=
  memb m (match mods with [] => [file] | _ => mods end).

Definition says_fun (m file : nat) (ds : list decl) : list fnspec :=
  flat_map (fun d => match d with DFun mods f => if about m mods file then [f] else [] | _ => [] end)
    (flat_map active ds).

Definition says_class (m file : nat) (ds : list decl) : list clspec :=
  flat_map (fun d => match d with DClass mods c => if about m mods file then [c] else [] | _ => [] end)
    (flat_map active ds).

Definition files (e : event) : list (nat * list decl) :=
  match e with Dir fs => fs | File file ds => [(file, ds)] | _ => [] end.

(** All that was declared about the module, in the order of declaration. *)
Definition said_fun (m : nat) (es : list event) : list fnspec :=
  flat_map (fun p => says_fun m (fst p) (snd p)) (flat_map files es).

Definition said_class (m : nat) (es : list event) : list clspec :=
  flat_map (fun p => says_class m (fst p) (snd p)) (flat_map files es).

(** The handler that was declared last for a name. *)
Definition hit (n : nat) (f : fnspec) : option nat :=
  if memb n (f_names f) then f_handler f else None.

Fixpoint last_hit (n : nat) (fs : list fnspec) : option nat :=
  match fs with
  | [] => None
  | f :: fs => match last_hit n fs with Some h => Some h | None => hit n f end
  end.

(** The class that was declared last under a name. *)
Fixpoint last_class (n : nat) (cs : list clspec) : option clspec :=
  match cs with
  | [] => None
  | c :: cs => match last_class n cs with
               | Some x => Some x
               | None => if c_name c =? n then Some c else None
               end
  end.

(** The module was imported. *)
Definition imported (m : nat) (es : list event) : Prop := In (Import m) es.

(** The history lets the declarations about a module take effect: nothing
    raises, its imports are seen, and no single file about it is registered
    once it is imported. *)
Definition silent (m : nat) (file : nat) (ds : list decl) : Prop :=
  says_fun m file ds = [] /\ says_class m file ds = [].

Fixpoint timely (m : nat) (there : bool) (es : list event) : Prop :=
  match es with
  | [] => True
  | Import m' :: es => timely m (there || (m' =? m)) es
  | Quiet m' :: es => m' <> m /\ timely m there es
  | Dir fs :: es => (forall f ds, In (f, ds) fs -> clean ds) /\ timely m there es
  | File f ds :: es => clean ds /\ (there = true -> silent m f ds) /\ timely m there es
  end.

(** The object is known only as [m.n], among what can be annotated. *)
Definition only_function (w : world) (m n o : nat) : Prop :=
  attr w m n = Some o /\
  (forall m' n', attr w m' n' = Some o -> m' = m /\ n' = n) /\
  (forall c k, cattr w c k <> Some o).

Definition only_class (w : world) (m n o : nat) : Prop :=
  attr w m n = Some o /\ (forall m' n', attr w m' n' = Some o -> m' = m /\ n' = n).
