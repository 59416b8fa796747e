(** Pages blocked by a removal (C44): which page is blocked, and which thread is
    going to unblock it. *)
From Coq Require Import NArith List.
From Verif Require Import Base Leaf Inner Tree TreeSpec.

Section MarkerSpec.
Context {P : Params}.
(** Page [i] is blocked: its entry [p] in the mapping table is an InnerAbortNode
    (1819-1833), put on top of the node at [q] (PostAbortOnParent 6839-6875). *)
Definition blocked (m : mem) (i : nat) (p q : N) : Prop :=
  tab m i = Some p /\ exists c, heap m p = Some (NInner (IAbort q c)).
(** The next step of [t] is RemoveAbortOnParent (6793-6824): page [i] back from
    [p] to [q]. *)
Definition unblocks (s : sys) (t i : nat) (p q : N) : Prop :=
  exists o k, running s t = Some (o, CasPtr i p q k).
(** The next step of [t] is a compare-and-swap, and whatever comes of it, the
    step after it is RemoveAbortOnParent. *)
Definition unblocks_soon (s : sys) (t i : nat) (p q : N) : Prop :=
  exists o j a n k, running s t = Some (o, Cas j a n k) /\ forall r, exists k', k r = CasPtr i p q k'.
(** [s'] comes some steps after [s]. *)
Inductive after : sys -> sys -> Prop :=
| af_refl s : after s s
| af_step s s1 e s2 : after s s1 -> sstep s1 e s2 -> after s s2.
(** The node below an update (child_node_p, 1350-1372). *)
Definition child (n : node) : option node :=
  match n with
  | NLeaf (LBase _ _ _) => None
  | NLeaf (LIns _ _ _ c | LDel _ _ _ c | LSplit _ _ _ c | LMerge _ _ _ c | LRemove _ c) => Some (NLeaf c)
  | NInner (IBase _ _ _ _ _) => None
  | NInner (IIns _ _ _ c | IDel _ _ _ _ c | ISplit _ _ _ c | IMerge _ _ _ c | IRemove _ c | IAbort _ c) => Some (NInner c)
  end.
End MarkerSpec.
