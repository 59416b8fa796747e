(** Model of the destruction of an index (~BwTree, FreeNodeByNodeID,
    FreeNodeByPointer) and of the reclamation of a replaced chain
    (EpochManager::FreeEpochDeltaChain) (bwtree.h). *)
From Coq Require Import List Arith Bool.
From Verif Require Import Base Leaf Inner Tree.
Import ListNotations.

Section Free.
Context {P : Params}.

(** Accesses to the nodes of a page.  A node of page [i] is named by the way
    from it back to the head of the chain: [false] when it is the child,
    [true] when it is the right branch of a merge.  [EFree]: Destroy() of a
    base node (2161-2168), which releases all chunks of its
    AllocationMeta (2045-2063) and with them the base node and every delta
    node allocated from it (InlineAllocate 2355-2366). *)
Inductive ev := ERead (i : nat) (p : list bool) | EDtor (i : nat) (p : list bool) | EFree (i : nat) (p : list bool).

(** The mapping table during destruction, one thread. *)
Definition table := nat -> option node.
Definition tnull (t : table) (i : nat) : table := fun j => if j =? i then None else t j.

Section Chains.
(** FreeNodeByNodeID. *)
Variable rec : table -> nat -> res (table * list ev).

(** FreeNodeByPointer (2857-2993) on a leaf chain.  The number of freed
    nodes it returns (only printed) is not modelled. *)
Fixpoint free_leaf (t : table) (i : nat) (p : list bool) (c : lchain) : res (table * list ev) :=
  match c with
  | LBase _ _ _ => Ok (t, [EDtor i p; EFree i p])                           (* 2902-2913 *)
  | LIns _ _ _ c' | LDel _ _ _ c' =>                                        (* 2868-2880 *)
      do r <- free_leaf t i (false :: p) c';
      Ok (fst r, ERead i p :: EDtor i p :: snd r)
  | LSplit _ s _ c' =>                                                      (* 2881-2890 *)
      do a <- rec t s;
      do b <- free_leaf (fst a) i (false :: p) c';
      Ok (fst b, ERead i p :: snd a ++ EDtor i p :: snd b)
  | LMerge _ _ r c' =>                                                      (* 2891-2901 *)
      do a <- free_leaf t i (false :: p) c';
      do b <- free_leaf (fst a) i (true :: p) r;
      Ok (fst b, ERead i p :: snd a ++ ERead i p :: snd b ++ [EDtor i p])
  | LRemove _ _ => Er EAssert                                               (* 2982-2990 *)
  end.

(** The separators of an inner base node, one by one (2961-2970). *)
Fixpoint free_items (t : table) (i : nat) (p : list bool) (l : list sep) : res (table * list ev) :=
  match l with
  | [] => Ok (t, [])
  | (_, j) :: l' =>
      do a <- rec t j;
      do b <- free_items (fst a) i p l';
      Ok (fst b, ERead i p :: snd a ++ snd b)
  end.

(** FreeNodeByPointer (2857-2993) on an inner chain.  An InnerSplitNode is
    read through a LeafSplitNode pointer (2943); the two classes have the
    same layout. *)
Fixpoint free_inner (t : table) (i : nat) (p : list bool) (c : ichain) : res (table * list ev) :=
  match c with
  | IBase _ _ _ items _ =>                                                  (* 2959-2980 *)
      do a <- free_items t i p items;
      Ok (fst a, snd a ++ [EDtor i p; EFree i p])
  | IIns (_, s) _ _ c' | ISplit _ s _ c' =>                                 (* 2914-2923, 2939-2948 *)
      do a <- rec t s;
      do b <- free_inner (fst a) i (false :: p) c';
      Ok (fst b, ERead i p :: snd a ++ EDtor i p :: snd b)
  | IDel (_, s) _ _ _ c' =>                                                 (* 2924-2938 *)
      do b <- free_inner (tnull t s) i (false :: p) c';
      Ok (fst b, ERead i p :: EDtor i p :: snd b)
  | IMerge _ _ r c' =>                                                      (* 2949-2958 *)
      do a <- free_inner t i (false :: p) c';
      do b <- free_inner (fst a) i (true :: p) r;
      Ok (fst b, ERead i p :: snd a ++ ERead i p :: snd b ++ [EDtor i p])
  | IRemove _ _ | IAbort _ _ => Er EAssert                                  (* 2982-2990 *)
  end.
End Chains.

(** FreeNodeByNodeID (2794-2803). *)
Fixpoint free_id (fuel : nat) (t : table) (i : nat) : res (table * list ev) :=
  match fuel with
  | 0 => Er EFuel
  | S f =>
      match t i with
      | None => Ok (t, [])
      | Some (NLeaf c) => free_leaf (free_id f) (tnull t i) i [] c
      | Some (NInner c) => free_inner (free_id f) (tnull t i) i [] c
      end
  end.

(** The mapping table after ClearThreadLocalGarbage (2740-2757): every remove
    delta handed to AddGarbageNode (5825) has been reclaimed and its id
    invalidated (8250-8257, 8313-8321).  Simplification: garbage lists are not
    part of the model of the memory; all remove deltas in the table count as
    handed over.  (In the states of the theorems, each of them belongs to a
    finished merge, which is where 5825 stands.) *)
Definition cleared (m : mem) : table := fun i =>
  match get m i with
  | Some (_, n) => if is_remove n then None else Some n
  | None => None
  end.

(** ~BwTree (2718-2732). *)
Definition destroy (fuel : nat) (m : mem) : res (table * list ev) := free_id fuel (cleared m) (root m).

(** EpochManager::FreeEpochDeltaChain (8196-8361): what happens to the nodes,
    and the ids invalidated.  Remove and abort deltas are objects of their
    own, released together with their destructor (delete), and end the walk. *)
Fixpoint gc_leaf (i : nat) (p : list bool) (c : lchain) : list ev * list nat :=
  match c with
  | LBase _ _ _ => ([EDtor i p; EFree i p], [])
  | LIns _ _ _ c' | LDel _ _ _ c' | LSplit _ _ _ c' =>
      let r := gc_leaf i (false :: p) c' in (ERead i p :: EDtor i p :: fst r, snd r)
  | LRemove id _ => ([ERead i p; EDtor i p; EFree i p], [id])
  | LMerge _ _ r c' =>
      let a := gc_leaf i (false :: p) c' in
      let b := gc_leaf i (true :: p) r in
      (ERead i p :: fst a ++ ERead i p :: fst b ++ [EDtor i p], snd a ++ snd b)
  end.
Fixpoint gc_inner (i : nat) (p : list bool) (c : ichain) : list ev * list nat :=
  match c with
  | IBase _ _ _ _ _ => ([EDtor i p; EFree i p], [])
  | IIns _ _ _ c' | IDel _ _ _ _ c' | ISplit _ _ _ c' =>
      let r := gc_inner i (false :: p) c' in (ERead i p :: EDtor i p :: fst r, snd r)
  | IRemove id _ => ([ERead i p; EDtor i p; EFree i p], [id])
  | IAbort _ _ => ([EDtor i p; EFree i p], [])
  | IMerge _ _ r c' =>
      let a := gc_inner i (false :: p) c' in
      let b := gc_inner i (true :: p) r in
      (ERead i p :: fst a ++ ERead i p :: fst b ++ [EDtor i p], snd a ++ snd b)
  end.
Definition gc (i : nat) (n : node) : list ev * list nat :=
  match n with NLeaf c => gc_leaf i [] c | NInner c => gc_inner i [] c end.
End Free.
