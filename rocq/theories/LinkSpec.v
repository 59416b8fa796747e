(** Pages absorbed by their left neighbour and taken out of their parent
    (C46, C52). *)
From Coq Require Import NArith List Arith Bool.
From Verif Require Import Base Leaf Inner InnerSpec Tree TreeSpec.
Import ListNotations.

Section LinkSpec.
Context {P : Params}.
(** A merge delta (LeafMergeNode 1699-1727, InnerMergeNode 1788-1813) for page
    [d], whose content at that time is in [rn] (a LeafRemoveNode 1676-1691 or
    InnerRemoveNode 1771-1786). *)
Definition merges (n : node) (d : nat) : Prop :=
  match n with NLeaf (LMerge _ i _ _) | NInner (IMerge _ i _ _) => d = i | _ => False end.
Definition absorbs (n : node) (d : nat) (rn : node) : Prop :=
  match n, rn with
  | NLeaf (LMerge _ i r _), NLeaf (LRemove _ r') => d = i /\ r = r'
  | NInner (IMerge _ i r _), NInner (IRemove _ r') => d = i /\ r = r'
  | _, _ => False
  end.
(** An InnerDeleteNode (1736-1762) that takes the separator of page [d] out of
    its parent. *)
Definition cuts (n : node) (d : nat) : Prop :=
  match n with NInner (IDel (_, i) _ _ _ _) => d = i | _ => False end.
Definition merged (m : mem) (d : nat) : Prop := exists p n, heap m p = Some n /\ merges n d.
Definition cut (m : mem) (d : nat) : Prop := exists p n, heap m p = Some n /\ cuts n d.
(** The children of an inner page. *)
Definition kid (n : node) (x : nat) : Prop :=
  match n with NInner c => x = ilid c \/ exists s, seps c s x | NLeaf _ => False end.
(** [a] ends where [b] begins, or before. *)
Definition bef (a b : node) : Prop :=
  match nhigh a, nlow b with Some (h, _), Some l => klt l h = false | _, _ => False end.
(** Where a thread that starts now can get to: from the root to the children and
    the right neighbours of pages that are not removed (a removed page is left
    at once, FinishPartialSMO 5896-5962), with the depth. *)
Inductive down (m : mem) : nat -> nat -> Prop :=
| dn_root : down m (root m) 0
| dn_kid i l n d : down m i l -> node_of m i = Some n -> is_remove n = false -> kid n d -> down m d (S l)
| dn_next i l n h d : down m i l -> node_of m i = Some n -> is_remove n = false -> nhigh n = Some (h, d) -> down m d l.
End LinkSpec.
