(** What releasing an index has to do: every node destroyed once, every block
    of memory released once, no node touched after its block is released. *)
From Coq Require Import List Arith Bool.
From Verif Require Import Base Leaf LeafSpec Inner InnerSpec Tree TreeSpec Free.
Import ListNotations.

(** A chain of updates, seen as memory: a node with a block of its own, an
    update placed in the block of the base node below it, or a merge of a
    chain with a right branch, placed in the block of the base node of the
    right branch (PostLeafMergeNode, PostInnerMergeNode, bwtree.h 7289 and
    7327). *)
Inductive shape := SAlone | SDelta (c : shape) | SMerge (right c : shape).

(** The base node below a node. *)
Fixpoint below_at (s : shape) (p : list bool) : list bool :=
  match s with SAlone => p | SDelta c | SMerge _ c => below_at c (false :: p) end.
(** The nodes of a chain, each with the node in whose block it is. *)
Fixpoint homes (s : shape) (p : list bool) : list (list bool * list bool) :=
  match s with
  | SAlone => [(p, p)]
  | SDelta c => (p, below_at s p) :: homes c (false :: p)
  | SMerge r c => (p, below_at r (true :: p)) :: homes c (false :: p) ++ homes r (true :: p)
  end.

Section FreeSpec.
Context {P : Params}.

Fixpoint lshape (c : lchain) : shape :=
  match c with
  | LBase _ _ _ | LRemove _ _ => SAlone
  | LIns _ _ _ c | LDel _ _ _ c | LSplit _ _ _ c => SDelta (lshape c)
  | LMerge _ _ r c => SMerge (lshape r) (lshape c)
  end.
Fixpoint ishape (c : ichain) : shape :=
  match c with
  | IBase _ _ _ _ _ | IRemove _ _ | IAbort _ _ => SAlone
  | IIns _ _ _ c | IDel _ _ _ _ c | ISplit _ _ _ c => SDelta (ishape c)
  | IMerge _ _ r c => SMerge (ishape r) (ishape c)
  end.
Definition nshape (n : node) : shape := match n with NLeaf c => lshape c | NInner c => ishape c end.

(** Pages in use. *)
Definition pages := nat -> option node.
Definition node_in (t : pages) (i : nat) (p : list bool) : Prop := exists n q, t i = Some n /\ In (p, q) (homes (nshape n) []).
Definition block_in (t : pages) (i : nat) (q : list bool) : Prop := exists n p, t i = Some n /\ In (p, q) (homes (nshape n) []).

Definition dtors (l : list ev) : list (nat * list bool) := flat_map (fun e => match e with EDtor i p => [(i, p)] | _ => [] end) l.
Definition frees (l : list ev) : list (nat * list bool) := flat_map (fun e => match e with EFree i p => [(i, p)] | _ => [] end) l.
Definition touches (e : ev) : option (nat * list bool) := match e with ERead i p | EDtor i p => Some (i, p) | EFree _ _ => None end.

Definition destroyed_once (t : pages) (l : list ev) : Prop :=
  NoDup (dtors l) /\ forall i p, In (i, p) (dtors l) <-> node_in t i p.
Definition released_once (t : pages) (l : list ev) : Prop :=
  NoDup (frees l) /\ forall i q, In (i, q) (frees l) <-> block_in t i q.
Definition no_use_after_free (t : pages) (l : list ev) : Prop :=
  forall l1 e l2 i p n q, l = l1 ++ e :: l2 -> touches e = Some (i, p) -> t i = Some n -> In (p, q) (homes (nshape n) []) ->
    ~ In (EFree i q) l1.

(** The pages of an index that have not been removed. *)
Definition live_pages (m : mem) : pages := fun i =>
  match node_of m i with Some n => if is_remove n then None else Some n | None => None end.
(** A single chain. *)
Definition only (i : nat) (n : node) : pages := fun j => if j =? i then Some n else None.
Definition no_merge_in (n : node) : Prop := match n with NLeaf c => no_merge c | NInner c => imerge_free c end.
(** In some execution, a step of a thread replaces the chain [n] of page [i]
    by a base page: the consolidation after which the chain is reclaimed. *)
Definition is_base (n : node) : Prop := match n with NLeaf (LBase _ _ _) | NInner (IBase _ _ _ _ _) => True | _ => False end.
Definition replaced (i : nat) (n : node) : Prop :=
  exists tr ss s e s' n', exec tr ss s /\ sstep s e s' /\
    node_of (sm s) i = Some n /\ ~ is_base n /\ node_of (sm s') i = Some n' /\ is_base n'.
End FreeSpec.
