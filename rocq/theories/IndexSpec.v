(** What an index scan should return. *)
From Coq Require Import List Bool.
From Verif Require Import Base Leaf LeafSpec Inner Tree TreeSpec Iter IterSpec Index.
Import ListNotations.

Section IndexSpec.
Context {P : Params}.
(** [res] are the values of the pairs of [A] whose key satisfies [ok], one for
    each pair, in key order. *)
Definition found (A : pairs) (ok : K -> bool) (res : list V) : Prop :=
  exists outs, ascending outs /\ NoDup outs /\ (forall x v, In (x, v) outs <-> A x v /\ ok x = true) /\ res = map snd outs.
(** What Peloton's helpers are for: no key below [c_low] satisfies the
    constraints if the leading column is bound to a value, and only [c_low]
    does if all columns are. *)
Definition bounded (q : query) : Prop :=
  (c_lead q = true -> forall x, c_ok q x = true -> klt x (c_low q) = false) /\
  (c_eq q = true -> forall x, c_ok q x = true <-> x = c_low q).
(** Begin() is usable: see C15. *)
Definition begins (m : mem) : Prop :=
  exists it, (forall f, irun m f begin_first = (m, Ok it)) /\ (is_end it = true \/ exists x, deref it = Ok x).
(** No key has two values. *)
Definition unique (A : pairs) : Prop := forall k v w, A k v -> A k w -> v = w.
(** Use as a primary key index: pairs are added by ConditionalInsert with a
    predicate that every value satisfies. *)
Definition primary (o : op) : Prop :=
  match o with
  | OpIns _ _ => False
  | OpCond _ _ pred => forall x, pred x = true
  | _ => True
  end.
End IndexSpec.
