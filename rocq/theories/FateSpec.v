(** Reclamation of everything that is unlinked, with removed pages (C46). *)
From Coq Require Import NArith List Arith Bool.
From Verif Require Import Base Leaf Inner Tree TreeSpec MarkerSpec GarbageSpec LinkSpec.
Import ListNotations.

Section FateSpec.
Context {P : Params}.
(** [handed]: given to AddGarbageNode.  [goes] has [(a, b)] if
    FreeEpochDeltaChain (8196-8361) goes on from node [a] to node [b].  [pend]
    has [(a, b)] if [a] is a remove node and [b] its child_node_p, which
    FreeEpochDeltaChain does not visit from [a]. *)
Record flog := { handed : list N; goes : list (N * N); pend : list (N * N) }.
Definition below_remove (F : flog) (q : N) : list N := map snd (filter (fun e => N.eqb (fst e) q) (pend F)).
Definition entry (m : mem) (d : nat) : list N := match tab m d with Some q => [q] | None => [] end.
(** The consequences of a step, as [note] of GarbageSpec, and moreover:
    - a merge node has two nodes below it, the second being the child of the
      remove node of the page merged (FinishPartialSMO 5896-5948, right_merge_p
      of LeafMergeNode 1699-1727 and InnerMergeNode 1788-1813);
    - after an InnerDeleteNode, PostInnerDeleteNode (5780-5857) hands over the
      node the mapping table has for the deleted page (5814-5825).
    Simplifications: nodes are handed over in the step that unlinks them (in the
    code by the next statements of the same thread); the remove node of a page
    merged is looked up in the mapping table (in the code it is in the snapshot
    of the thread; the entry does not change, C45). *)
Definition fate (s : sys) (e : event) (F : flog) : flog :=
  match e with
  | EStep t =>
      match running s t with
      | Some (_, Cas i o n _) =>
          if swaps (sm s) i o then
            let a := nptr (sm s) in
            match n with
            | NInner (IAbort _ _) => F
            | NLeaf (LBase _ _ _) | NInner (IBase _ _ _ _ _) => {| handed := o :: handed F; goes := goes F; pend := pend F |}
            | NLeaf (LRemove _ _) | NInner (IRemove _ _) => {| handed := handed F; goes := goes F; pend := (a, o) :: pend F |}
            | NLeaf (LMerge _ d _ _) | NInner (IMerge _ d _ _) =>
                {| handed := handed F; goes := (a, o) :: map (pair a) (flat_map (below_remove F) (entry (sm s) d)) ++ goes F; pend := pend F |}
            | NInner (IDel (_, d) _ _ _ _) => {| handed := entry (sm s) d ++ handed F; goes := (a, o) :: goes F; pend := pend F |}
            | _ => {| handed := handed F; goes := (a, o) :: goes F; pend := pend F |}
            end
          else F
      | Some (_, CasPtr i o _ _) => if swaps (sm s) i o then {| handed := o :: handed F; goes := goes F; pend := pend F |} else F
      | _ => F
      end
  | _ => F
  end.
Inductive fated : sys -> flog -> Prop :=
| ft_init : fated sinit {| handed := []; goes := []; pend := [] |}
| ft_step s F e s' : fated s F -> sstep s e s' -> fated s' (fate s e F).

(** The nodes FreeEpochDeltaChain releases from [g]. *)
Inductive under (F : flog) (g : N) : N -> Prop :=
| un_head : under F g g
| un_next a b : under F g a -> In (a, b) (goes F) -> under F g b.
(** The chains there are: the entries of the mapping table, what is below the
    marker of a blocked page, what is below the remove node of a page that has
    not been merged yet, and what was handed over. *)
Definition owner (s : sys) (F : flog) (g : N) : Prop :=
  (exists i, tab (sm s) i = Some g) \/ (exists i p, blocked (sm s) i p g) \/
  (exists i q, tab (sm s) i = Some q /\ In (q, g) (pend F) /\ ~ merged (sm s) i) \/ In g (handed F).
(** The right branch of a merge. *)
Definition right_branch (n : node) : option node :=
  match n with NLeaf (LMerge _ _ r _) => Some (NLeaf r) | NInner (IMerge _ _ r _) => Some (NInner r) | _ => None end.
End FateSpec.
