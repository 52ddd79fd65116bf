(** What the symbol graph should be. *)
Require Import List Bool Arith.
Import ListNotations.
Require Import Verif.Base Verif.SymModel.

(** [p] is a parent of [s], and [s] is a child of [p]. *)
Definition parent_of (g : graph) (s p : nat) : Prop := exists l, dget (g_par g s) p = Some l.
Definition child_of (g : graph) (p s : nat) : Prop := exists l, dget (g_chd g p) s = Some l.

(** Histories: symbols are created before they are used, garbage is collected once, and a
    collected symbol takes no part in later updates. [gone] holds the collected ones. *)
Inductive hist : list op -> graph -> list nat -> Prop :=
| Hi_init : hist [] g_init []
| Hi_new l g gone s : hist l g gone -> ~ In s (g_syms g) ->
    hist (l ++ [New s]) (op_step g (New s)) gone
| Hi_update l g gone skip s ds ow now : hist l g gone ->
    (forall x, In x (s :: ds) -> In x (g_syms g) /\ ~ In x gone) ->
    hist (l ++ [Update skip s ds ow now]) (op_step g (Update skip s ds ow now)) gone
| Hi_collect l g gone s : hist l g gone -> In s (g_syms g) -> ~ In s gone ->
    hist (l ++ [Collect s]) (op_step g (Collect s)) (s :: gone).

