(** Model of page identifier allocation: bwtree.h 3120-3136 (GetNextNodeID),
    2821-2828 (InvalidateNodeID), 2682 (next_unused_node_id{1}), 3004-3015
    (InitNodeLayout takes the first two identifiers). *)
From Coq Require Import List NArith.
From Verif Require Import Epoch.
Import ListNotations.
Open Scope N_scope.

Inductive pc := PIdle | PPop | PAdd.

Record st := {
  free : list N;       (* free_node_id_list *)
  next : N;            (* next_unused_node_id; simplification: unbounded *)
  pcs : nat -> pc;
  given : list N       (* identifiers handed out, newest first *)
}.

Inductive act :=
| ACall (t : nat)      (* GetNextNodeID() is called *)
| AStep (t : nat)      (* its next atomic step *)
| AInval (i : N).      (* InvalidateNodeID(i) after reclamation *)

Definition set_pc (s : st) (t : nat) (p : pc) : st :=
  {| free := free s; next := next s; pcs := upd (pcs s) t p; given := given s |}.

Definition step (s : st) (a : act) : st :=
  match a with
  | ACall t => match pcs s t with PIdle => set_pc s t PPop | _ => s end
  | AStep t =>
      match pcs s t with
      | PIdle => s
      | PPop => (* 3125: one atomic Pop(), see Stack.v *)
          match free s with
          | [] => set_pc s t PAdd
          | i :: r => {| free := r; next := next s; pcs := upd (pcs s) t PIdle; given := i :: given s |}
          end
      | PAdd => (* 3131: fetch_add(1) *)
          {| free := free s; next := next s + 1; pcs := upd (pcs s) t PIdle; given := next s :: given s |}
      end
  | AInval i => (* 2821-2828: the push to the free list is commented out *)
      s
  end.

Definition run (s : st) (l : list act) : st := fold_left step l s.

(** 2676, 2682. *)
Definition init0 : st := {| free := []; next := 1; pcs := fun _ => PIdle; given := [] |}.
(** InitNodeLayout: the root (1) and the first leaf (2). *)
Definition init : st := run init0 [ACall 0; AStep 0; AStep 0; ACall 0; AStep 0; AStep 0].
