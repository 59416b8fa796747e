(** Which histories of calls conditionally insert only pairs that nobody has
    asked to delete. *)
From Coq Require Import List Arith.
From Verif Require Import Base Leaf Inner Tree TreeSpec.
Import ListNotations.

Section RoomSpec.
Context {P : Params}.
(** Delete has been called on the pair. *)
Definition deleted (tr : list event) (k : K) (v : V) : Prop := exists t, In (ECall t (OpDel k v)) tr.
(** The call a thread is in (traces are latest first). *)
Fixpoint current (tr : list event) (t : nat) : option op :=
  match tr with
  | [] => None
  | ECall u o :: tr => if u =? t then Some o else current tr t
  | ERet u _ _ :: tr => if u =? t then None else current tr t
  | EStep _ :: tr => current tr t
  end.
(** At no time is a ConditionalInsert running on a pair on which Delete has
    already been called. *)
Fixpoint conds_fresh (tr : list event) : Prop :=
  match tr with
  | [] => True
  | _ :: tr' => conds_fresh tr' /\ forall t k v pred, current tr t = Some (OpCond k v pred) -> ~ deleted tr k v
  end.
End RoomSpec.
