(** Specification for C01/C02: lexically scoped offsets. Here an offset is an argument
    of the evaluation, so it cannot leak by construction. *)
Require Import List ZArith.
Import ListNotations.
Require Import Verif.TimestampModel.
Open Scope Z_scope.

(** [lex p (oc, os) (cc, sc)] runs [p] under enclosing offsets [oc, os] with counters
    [cc, sc]: final counters, observations (relative to a started tracer), raised? *)
Fixpoint lex (p : tprog) (o : Z * Z) (c : Z * Z) : (Z * Z) * list ts * bool :=
  match p with
  | TSkip => (c, [], false)
  | TObserve => (c, [mkTs (fst c + fst o) (snd c + snd o)], false)
  | TTick dc ds => ((fst c + dc, snd c + ds), [], false)
  | TRaise => (c, [], true)
  | TSeq p q =>
      match lex p o c with
      | (c1, o1, true) => (c1, o1, true)
      | (c1, o1, false) =>
          match lex q o c1 with (c2, o2, r) => (c2, o1 ++ o2, r) end
      end
  | TTry p q =>
      match lex p o c with
      | (c1, o1, false) => (c1, o1, false)
      | (c1, o1, true) =>
          match lex q o c1 with (c2, o2, r) => (c2, o1 ++ o2, r) end
      end
  | TOffset dc ds body => lex body (fst o + dc, snd o + ds) c
  end.
