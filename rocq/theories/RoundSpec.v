(** Specification of a reactive round. *)
Require Import List Bool Arith.
Import ListNotations.
Require Import Verif.Base Verif.StoreModel Verif.StoreSpec Verif.RoundModel.

(** The lists have no element in common. *)
Fixpoint apart (ls : list (list nat)) : Prop :=
  match ls with
  | [] => True
  | l :: ls => (forall x, In x l -> forall l', In l' ls -> ~ In x l') /\ apart ls
  end.

(** Every message names the cell that was submitted before it as the last one executed. *)
Fixpoint truthful (before : option nat) (ls : list (list nat)) (ms : list (bool * msg)) : Prop :=
  match ms with
  | [] => True
  | bm :: ms =>
      (forall x, before = Some x -> m_last (snd bm) = Some x) /\
      match ls with
      | [x] :: ls => truthful (Some x) ls ms
      | _ => True
      end
  end.

(** Nothing is left over from an earlier round. *)
Definition clear (r : round) : Prop :=
  r_done r = [] /\ r_new r = [] /\ r_forced r = [] /\ r_cascading r = [] /\ r_active r = false.

Definition has_widget (m : msg) (x : nat) : Prop :=
  exists w, In w (m_widgets m) /\ w_id w = x /\ w_code w = true.
