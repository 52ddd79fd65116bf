(** What C99-C101 mean, without the tracer's state. *)
From Coq Require Import List Arith Bool.
From Verif Require Import Base FollowModel.
Import ListNotations.

(** Where the object of a step came from: the step before it, a name, or
    something else (a call, a constant). *)
Inductive origin := FromStep | FromName (x : nat) | FromElse.

(** One attribute or subscript read by Python: in the chain of top node [vn],
    the attribute [vk] of [vo] gave [vv]; [vcalled]: it is called at once;
    [vlast]: it is the value of the chain. *)
Record visit := mkV {
  vn : nat;
  vo : nat;
  vk : key;
  vv : nat;
  vfrom : origin;
  vcalled : bool;
  vlast : bool
}.

(** What Python does, with no tracer: the value, what was read and what was
    called (as an attribute or a subscript of an object, or otherwise).  For
    a chain also what its value was read from. *)
Definition out : Type := nat * list visit * list (option (nat * key) * nat).
Definition outc : Type := nat * option (nat * key) * list visit * list (option (nat * key) * nat).

Definition origin_of (c : chain) (p : option (nat * key)) : origin :=
  match p, c with
  | Some _, _ => FromStep
  | None, CBase (EName x) => FromName x
  | None, _ => FromElse
  end.

Definition pend (W : world) (o : nat) (k : key) : option (nat * key) :=
  if supported W k then Some (o, k) else None.

Fixpoint py_expr (W : world) (e : expr) : option out :=
  match e with
  | EConst o => Some (o, [], [])
  | EName x => match env W x with Some o => Some (o, [], []) | None => None end
  | ELoad n c =>
      match py_chain W n c false true with
      | Some (o, _, vs, cs) => Some (o, vs, cs)
      | None => None
      end
  end
with py_chain (W : world) (n : nat) (c : chain) (called last : bool) : option outc :=
  match c with
  | CBase e =>
      match py_expr W e with
      | Some (o, vs, cs) => Some (o, None, vs, cs)
      | None => None
      end
  | CAttr d k =>
      match py_chain W n d false false with
      | Some (o, p, vs, cs) =>
          match fld W o (KAttr k) with
          | Some v =>
              Some (v, pend W o (KAttr k),
                    vs ++ [mkV n o (KAttr k) v (origin_of d p) called last], cs)
          | None => None
          end
      | None => None
      end
  | CSub d e =>
      match py_chain W n d false false with
      | Some (o, p, vs, cs) =>
          match py_expr W e with
          | Some (i, vs', cs') =>
              match fld W o (KSub i) with
              | Some v =>
                  Some (v, pend W o (KSub i),
                        (vs ++ vs') ++ [mkV n o (KSub i) v (origin_of d p) called last],
                        cs ++ cs')
              | None => None
              end
          | None => None
          end
      | None => None
      end
  | CCall d a =>
      match py_chain W n d true false with
      | Some (f, p, vs, cs) =>
          match py_args W a with
          | Some (l, vs', cs') =>
              match callr W f l with
              | Some v => Some (v, None, vs ++ vs', (cs ++ [(p, f)]) ++ cs')
              | None => None
              end
          | None => None
          end
      | None => None
      end
  end
with py_args (W : world) (a : args) : option (list nat * list visit * list (option (nat * key) * nat)) :=
  match a with
  | ANil => Some ([], [], [])
  | ACons e r =>
      match py_expr W e with
      | Some (o, vs, cs) =>
          match py_args W r with
          | Some (l, vs', cs') => Some (o :: l, vs ++ vs', cs ++ cs')
          | None => None
          end
      | None => None
      end
  end.

(** A chain in which nothing was read yet but what is inside brackets. *)
Fixpoint fresh (c : chain) : bool :=
  match c with
  | CBase _ => true
  | CCall d _ => fresh d
  | _ => false
  end.
Definition quiet (e : expr) : bool :=
  match e with ELoad _ _ => false | _ => true end.

(** The slices after the first step of a chain are names or constants:
    [x.a[i]], [x[y.b].c] and [x.f(y.b[z.c])] but not [x.a[y.b]]. *)
Fixpoint plain (e : expr) : bool :=
  match e with
  | ELoad _ c => plain_chain c
  | _ => true
  end
with plain_chain (c : chain) : bool :=
  match c with
  | CBase e => plain e
  | CAttr d _ => plain_chain d
  | CSub d e => plain_chain d && plain e && (fresh d || quiet e)
  | CCall d a => plain_chain d && plain_args a
  end
with plain_args (a : args) : bool :=
  match a with
  | ANil => true
  | ACons e r => plain e && plain_args r
  end.

(** No attribute of [None] is read. *)
Definition none_bare (W : world) : Prop := forall k, fld W 0 k = None.

(** Between chains. *)
Definition idle (s : st) : Prop :=
  first s = None /\ top s = None /\ saved s = None /\ active s = SFrame.

(** What a symbol stands for. *)
Definition denotes (W : world) (y : sym) : option nat :=
  match y with
  | (_, KAnon o) => Some o
  | (SFrame, KAttr x) => env W x
  | (SFrame, KSub x) => env W x
  | (SNs o, k) => fld W o k
  end.

(** The object a symbol has. *)
Definition has_obj (s : st) (y : sym) : option nat := slook (syms s) y.

(** The symbol of what a visit reads. *)
Definition vsym (v : visit) : sym := (SNs (vo v), vk v).

(** Why a symbol is loaded at a node: it was read there, or it names the
    object whose attribute is called there. *)
Definition reason (vs : list visit) (x : nat * sym) : Prop :=
  exists v, In v vs /\ vn v = fst x /\
    (snd x = vsym v \/
     (vcalled v = true /\
      ((exists n, vfrom v = FromName n /\
                  (snd x = (SFrame, KAttr n) \/ snd x = (SFrame, KSub n)))
       \/ snd (snd x) = KAnon (vo v)))).

(** What is assigned to: the node of the target, the object and the
    attribute or subscript. *)
Definition py_target (W : world) (t : target) : option (nat * (nat * key)) :=
  match t with
  | TAttr n c k =>
      match py_chain W n c false false with
      | Some (o, _, _, _) => Some (n, (o, KAttr k))
      | None => None
      end
  | TSub n c e =>
      match py_chain W n c false false with
      | Some (o, _, _, _) =>
          match py_expr W e with
          | Some (i, _, _) => Some (n, (o, KSub i))
          | None => None
          end
      | None => None
      end
  end.

Definition plain_target (t : target) : bool :=
  match t with
  | TAttr _ c _ => plain_chain c
  | TSub _ c e => plain_chain c && plain e && (fresh c || quiet e)
  end.

(** A target whose object is not [None] and whose subscript is supported. *)
Definition storable (W : world) (d : nat * (nat * key)) : Prop :=
  fst (snd d) <> 0 /\ supported W (snd (snd d)) = true.

(** Some attribute (subscript) symbol of the object [p] has the object [v]. *)
Definition holds (s : st) (p : nat) (sub : bool) (v : nat) : Prop :=
  exists k, is_sub k = sub /\ has_obj s (SNs p, k) = Some v.
