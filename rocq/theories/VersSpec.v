(** What it means that a symbol was written, and what `code` and a use should find. *)
From Coq Require Import List Arith Bool ZArith.
From Verif Require Import Base TimestampModel VersModel.
Import ListNotations.
Local Open Scope nat_scope.

(** [p] is [s] or something in it, at any depth. *)
Definition part (H : heap) (s p : nat) : Prop := reach (fun a b => In b (parts H a)) s p.

(** The event writes [s] at [t]: directly, or because something around [s] is written with all that
    it owns. What a `__class__` holds is left alone. *)
Definition writes (e : event) (s : nat) (t : ts) : Prop :=
  match e with
  | Refresh H r _ descend now =>
      t = now /\
      (s = r \/
       (descend = true /\
        reach (fun a b => (a = r \/ is_class H a = false) /\ In b (own_parts H a)) r s))
  | _ => False
  end.

(** The event writes something inside the namespace [n] at [t], or marks it changed. *)
Definition stirs (e : event) (n : nat) (t : ts) : Prop :=
  match e with
  | Refresh H _ _ _ _ => exists q, writes e q t /\ inside H q = Some n
  | Bump m now => m = n /\ now = t
  | Use _ _ _ _ _ _ _ => False
  end.

Definition written (h : list event) (s : nat) (t : ts) : Prop := exists e, In e h /\ writes e s t.

(** The last write of [s] was at [t]. *)
Definition last_write (h : list event) (s : nat) (t : ts) : Prop :=
  exists h1 e h2, h = h1 ++ e :: h2 /\ writes e s t /\ forall e' t', In e' h2 -> ~ writes e' s t'.

(** What [s] is stamped with: its last write, or else the time it was created with. *)
Definition stamp (born : nat -> ts) (h : list event) (s : nat) (t : ts) : Prop :=
  last_write h s t \/ ((forall t', ~ written h s t') /\ t = born s).

(** A stamp of [s] or, when that says nothing, of something that [s] is in. *)
Inductive shown (born : nat -> ts) (h : list event) (H : heap) : nat -> ts -> Prop :=
| shown_own s t : stamp born h s t -> shown born h H s t
| shown_whole s t q u :
    stamp born h s t -> ts_is_initialized t = false -> In q (wholes H s) ->
    shown born h H q u -> shown born h H s u.

(** Time does not run backwards, writes have a time, and nothing is written before it is created. *)
Definition wtime (e : event) : option ts :=
  match e with Refresh _ _ _ _ now => Some now | Bump _ now => Some now | Use _ _ _ _ _ _ _ => None end.
Definition ordered (born : nat -> ts) (h : list event) : Prop :=
  (forall h1 e1 h2 e2 h3 t1 t2, h = h1 ++ e1 :: h2 ++ e2 :: h3 ->
     wtime e1 = Some t1 -> wtime e2 = Some t2 -> ts_leb t1 t2 = true) /\
  (forall e t, In e h -> wtime e = Some t -> ts_is_initialized t = true) /\
  (forall s t, written h s t -> ts_leb (born s) t = true) /\
  (forall s, born s = ts_uninit \/ ts_is_initialized (born s) = true).

(** Every write of [s] is a write of [s] itself that takes a snapshot. *)
Definition plain (h : list event) (s : nat) : Prop :=
  forall e t, In e h -> writes e s t -> exists H d, e = Refresh H s true d t.

(** [s] has nothing in it that is written. *)
Definition alone (h : list event) (s : nat) : Prop :=
  forall H r d now, In (Refresh H r true d now) h ->
    reach (fun a b => In b (wholes H a)) r s -> r = s.

(** The last write of [s] at or before [u] was at [t]. *)
Definition last_write_by (h : list event) (s : nat) (u t : ts) : Prop :=
  written h s t /\ ts_leb t u = true /\
  forall t', written h s t' -> ts_leb t' u = true -> ts_leb t' t = true.

(** When [s] was written, in order, each time once. *)
Definition ts_dec (a b : ts) : {a = b} + {a <> b}.
Proof. decide equality; apply Z.eq_dec. Defined.
Definition times (h : list event) (s : nat) : list ts :=
  fold_left (fun l e => match e with
                        | Refresh _ r _ _ now =>
                            if r =? s then if in_dec ts_dec now l then l else l ++ [now] else l
                        | _ => l
                        end) h [].

(** The [k]-th in a list, counted from the end if [k] is negative. *)
Definition at_index (l : list ts) (k : Z) (t : ts) : Prop :=
  exists i, nth_error l i = Some t /\
    (k = Z.of_nat i \/ (k < 0 /\ (k + Z.of_nat (length l))%Z = Z.of_nat i)%Z).

(** The times at which [s] got a value. *)
Definition update (born : nat -> ts) (h : list event) (p : nat) (u : ts) : Prop :=
  (written h p u \/ u = born p) /\ ts_is_initialized u = true.

(** A use of [s] is one of [p] too. *)
Definition asked (H : heap) (exclude_ns : bool) (s p : nat) : Prop :=
  p = s \/ (exclude_ns = false /\ part H s p).

(** The heaps are finite. *)
Definition finite (H : heap) : Prop :=
  forall s, In s (syms H) -> incl (parts H s) (syms H) /\ incl (wholes H s) (syms H).
Definition known (e : event) : Prop :=
  match e with
  | Refresh H s _ _ _ => finite H /\ In s (syms H)
  | Use H _ _ _ _ _ s => finite H /\ In s (syms H)
  | Bump _ _ => True
  end.
