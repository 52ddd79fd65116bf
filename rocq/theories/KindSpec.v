(** What C106 means. *)
From Coq Require Import List Arith Bool.
From Verif Require Import Base KindModel.
Import ListNotations.

(** The variables. *)
Definition bind (env : nat -> option nat) (e : event) : nat -> option nat :=
  match e with
  | Def x _ o _ | DefClass x o | ImportName x o | MakeModule x o | Assign _ x o _ =>
      fun z => if z =? x then Some o else env z
  | Del x => fun z => if z =? x then None else env z
  end.

Definition env_of (h : list event) : nat -> option nat := fold_left bind h (fun _ => None).

(** [code o]: the definition that the object is a function of.  What a call of a
    variable runs. *)
Definition runs (code : nat -> option nat) (env : nat -> option nat) (x : nat) : option nat :=
  match env x with Some o => code o | None => None end.

(** What the text of a binding says about the name: a definition makes a
    function, and so on; a name that is assigned a module is one. *)
Definition meant (modobj : nat -> bool) (e : event) : option (nat * kind) :=
  match e with
  | Def x _ _ _ => Some (x, Function)
  | DefClass x _ => Some (x, Class)
  | ImportName x _ => Some (x, Import)
  | MakeModule x _ => Some (x, Module)
  | Assign true x _ _ => Some (x, Subscript)
  | Assign false x o _ => if modobj o then Some (x, Module) else Some (x, Default)
  | Del _ => None
  end.

(** The kind of the last binding. *)
Definition last_kind (modobj : nat -> bool) (x : nat) (h : list event) : option kind :=
  fold_left (fun acc e =>
    match e with
    | Del z => if z =? x then None else acc
    | _ => match meant modobj e with
           | Some (z, k) => if z =? x then Some k else acc
           | None => acc
           end
    end) h None.

(** A binding of [x] by [e] after [h]: [x] has never been a module since it was
    last deleted, and an import does not replace something else. *)
Definition usual (modobj : nat -> bool) (x : nat) (h : list event) (e : event) : Prop :=
  match meant modobj e with
  | Some (z, k) => z = x ->
      last_kind modobj x h <> Some Module /\
      (k = Import -> last_kind modobj x h = None \/ last_kind modobj x h = Some Import)
  | None => True
  end.

(** What is bound after [h] lets the body be known: a function definition gives
    the function itself, an assigned function comes from a variable, and a
    variable that was a function becomes no other thing without [del]. *)
Definition tracked (code : nat -> option nat) (h : list event) (e : event) : Prop :=
  let env := env_of h in
  match e with
  | Def _ d o _ => code o = Some d
  | Assign _ x o deps =>
      runs code env x = code o \/
      (code o <> None /\ exists z, In z deps /\ z <> x /\ env z = Some o)
  | DefClass x o | ImportName x o | MakeModule x o => runs code env x = None /\ code o = None
  | Del _ => True
  end.

(** [x] was bound to a module, and not deleted since. *)
Definition was_module (modobj : nat -> bool) (x : nat) (h : list event) : bool :=
  fold_left (fun acc e =>
    match e with
    | Del z => if z =? x then false else acc
    | _ => match meant modobj e with
           | Some (z, Module) => if z =? x then true else acc
           | _ => acc
           end
    end) h false.

(** No function is defined under the name of a module. *)
Definition nameless (modobj : nat -> bool) (h : list event) (e : event) : Prop :=
  match e with Def x _ _ _ => was_module modobj x h = false | _ => True end.

Definition always (P : list event -> event -> Prop) (h : list event) : Prop :=
  forall h1 e h2, h = h1 ++ e :: h2 -> P h1 e.

Definition target (e : event) : nat :=
  match e with
  | Def x _ _ _ | DefClass x _ | ImportName x _ | MakeModule x _ | Assign _ x _ _ | Del x => x
  end.
