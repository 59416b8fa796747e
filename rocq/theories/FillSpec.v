(** What is said about an index from which nothing is deleted (C03, C15, C58,
    C59). *)
From Coq Require Import List Arith.
From Verif Require Import Base Leaf LeafSpec Tree TreeSpec.
Import ListNotations.

Section FillSpec.
Context {P : Params}.
(** Delete is not called. *)
Definition no_delete (o : op) : Prop := match o with OpDel _ _ => False | _ => True end.
Definition never_deletes (tr : list event) : Prop := forall t o, In (ECall t o) tr -> no_delete o.
(** [items] are the pairs of [A] with keys from [low] up to [high], each once. *)
Definition pairs_of (A : pairs) (low : option K) (high : option (K * nat)) (items : list (K * V)) : Prop :=
  NoDup items /\ forall k v, In (k, v) items <-> above low k /\ below high k /\ A k v.
(** [ids] are identifiers of different leaf pages of the index. *)
Definition leaves (m : mem) (ids : list nat) : Prop := NoDup ids /\ forall i, In i ids -> reach m i.
End FillSpec.
