(** Model of the index operations: traversal, help-along of unfinished
    structure modifications, size adjustment, Insert, Delete, GetValue and
    ConditionalInsert (bwtree.h), as programs over atomic accesses to the
    mapping table and the root id. *)
From Coq Require Import List Arith Bool ZArith NArith.
From Verif Require Import Base Leaf Inner.
Import ListNotations.

(** bwtree.h 139-147. *)
Definition FIRST_LEAF : nat := 2.

Section Tree.
Context {P : Params}.

(** A logical page; BaseNode::IsOnLeafDeltaChain (1186-1189) tells the two
    kinds apart. *)
Inductive node := NLeaf (c : lchain) | NInner (c : ichain).

(** * Shared memory
    [heap] maps addresses to published nodes, which are immutable; [tab] is
    the mapping table (2646-2690); ids from [nid] on are unused
    (next_unused_node_id).  Simplifications: memory is never reused (reclamation
    is the subject of Epoch.v), ids are unbounded (see Ids.v), and only nodes
    that were published get an address. *)
Record mem := {
  heap : N -> option node;
  nptr : N;
  tab : nat -> option N;
  nid : nat;
  root : nat
}.
Definition fset {A} (f : nat -> option A) (i : nat) (x : A) : nat -> option A :=
  fun j => if j =? i then Some x else f j.
(** The same for addresses, which are binary numbers so that long executions
    can be computed. *)
Definition pfset {A} (f : N -> option A) (i : N) (x : A) : N -> option A :=
  fun j => if N.eqb j i then Some x else f j.
Definition get (m : mem) (i : nat) : option (N * node) :=
  match tab m i with
  | None => None
  | Some p => match heap m p with None => None | Some n => Some (p, n) end
  end.

(** * Programs *)
Inductive prog (A : Type) : Type :=
| Ret (a : A)
| Err (e : err)
| PLoad (i : nat) (k : N * node -> prog A)                 (* GetNode 3198-3203 *)
| Cas (i : nat) (old : N) (n : node) (k : option N -> prog A)   (* allocate a node and InstallNodeToReplace 3143-3158; Some: its address *)
| CasPtr (i : nat) (old new : N) (k : bool -> prog A)             (* InstallNodeToReplace of a node that already has an address *)
| LoadRoot (k : nat -> prog A)                              (* root_id.load() *)
| CasRoot (old new : nat) (k : bool -> prog A)              (* InstallRootNode 3166-3170 *)
| NewNode (n : node) (k : nat -> prog A).                   (* GetNextNodeID and InstallNewNode 3178-3183, as one step: nobody else knows the id in between *)
Arguments Ret {A}. Arguments Err {A}. Arguments PLoad {A}. Arguments Cas {A}. Arguments CasPtr {A}.
Arguments LoadRoot {A}. Arguments CasRoot {A}. Arguments NewNode {A}.

Fixpoint pbind {A B} (p : prog A) (f : A -> prog B) : prog B :=
  match p with
  | Ret a => f a
  | Err e => Err e
  | PLoad i k => PLoad i (fun x => pbind (k x) f)
  | Cas i o n k => Cas i o n (fun x => pbind (k x) f)
  | CasPtr i o n k => CasPtr i o n (fun x => pbind (k x) f)
  | LoadRoot k => LoadRoot (fun x => pbind (k x) f)
  | CasRoot o n k => CasRoot o n (fun x => pbind (k x) f)
  | NewNode n k => NewNode n (fun x => pbind (k x) f)
  end.
Definition lift {A} (r : res A) : prog A := match r with Ok a => Ret a | Er e => Err e end.

(** One atomic step of a program.  [Ret] and [Err] do not step. *)
Definition pstep {A} (m : mem) (p : prog A) : mem * prog A :=
  match p with
  | Ret a => (m, Ret a)
  | Err e => (m, Err e)
  | PLoad i k => match get m i with Some x => (m, k x) | None => (m, Err ENull) end
  | Cas i o n k =>
      match tab m i with
      | Some p' =>
          if N.eqb p' o then
            ({| heap := pfset (heap m) (nptr m) n; nptr := N.succ (nptr m);
                tab := fset (tab m) i (nptr m); nid := nid m; root := root m |}, k (Some (nptr m)))
          else (m, k None)
      | None => (m, k None)
      end
  | CasPtr i o n k =>
      match tab m i with
      | Some p' =>
          if N.eqb p' o then
            ({| heap := heap m; nptr := nptr m; tab := fset (tab m) i n; nid := nid m; root := root m |}, k true)
          else (m, k false)
      | None => (m, k false)
      end
  | LoadRoot k => (m, k (root m))
  | CasRoot o n k =>
      if root m =? o
      then ({| heap := heap m; nptr := nptr m; tab := tab m; nid := nid m; root := n |}, k true)
      else (m, k false)
  | NewNode n k =>
      ({| heap := pfset (heap m) (nptr m) n; nptr := N.succ (nptr m);
          tab := fset (tab m) (nid m) (nptr m); nid := S (nid m); root := root m |}, k (nid m))
  end.

(** InitNodeLayout (3004-3094): root 1 with the single child 2, empty leaf 2. *)
Definition minit : mem := {|
  heap := fun p => match p with
                   | 0%N => Some (NInner (IBase 0 None FIRST_LEAF [(kdef, FIRST_LEAF)] None))
                   | 1%N => Some (NLeaf (LBase None [] None))
                   | _ => None end;
  nptr := 2%N;
  tab := fun i => match i with 1 => Some 0%N | 2 => Some 1%N | _ => None end;
  nid := 3;
  root := 1 |}.

(** * Traversal context (993-1091, NodeSnapshot 1846-1893) *)
Record snap := { s_id : nat; s_ptr : N; s_node : node }.
(** The parent snapshot: never written (read-optimised traversal), the root
    marker INVALID_NODE_ID (its pointer is indeterminate: not written in a
    first attempt, left over from the previous attempt in a retry), or a
    snapshot. *)
Inductive par := PUninit | PRoot | PNode (s : snap).
Record ctx := { key : K; cur : snap; prt : par }.
Definition set_cur (x : ctx) (s : snap) : ctx := {| key := key x; cur := s; prt := prt x |}.
Definition set_par (x : ctx) (s : snap) : ctx := {| key := key x; cur := cur x; prt := PNode s |}.

(** Operations below return [None] for "abort_flag was set": the traversal
    starts over and the rest of the context is overwritten (3348-3352). *)
Notation "x <- p ;; q" := (pbind p (fun x => q)) (at level 61, p at next level, right associativity).

Definition nhigh (n : node) : option (K * nat) :=
  match n with NLeaf c => lhigh c | NInner c => ihigh c end.
Definition nlow (n : node) : option K :=
  match n with NLeaf c => llow c | NInner c => ilow c end.
Definition is_leaf (n : node) : bool := match n with NLeaf _ => true | NInner _ => false end.
(** IsRemoveNode (1209-1212). *)
Definition is_remove (n : node) : bool :=
  match n with NLeaf (LRemove _ _) | NInner (IRemove _ _) => true | _ => false end.
(** IsDeltaNode (1194-1204). *)
Definition is_delta (n : node) : bool :=
  match n with NLeaf (LBase _ _ _) | NInner (IBase _ _ _ _ _) => false | _ => true end.

(** ConsolidateNode (6292-6358): the updated snapshot. *)
Definition consolidate (s : snap) : prog snap :=
  n' <- match s_node s with
        | NLeaf c => c' <- lift (lconsolidate c) ;; Ret (NLeaf c')
        | NInner c => c' <- lift (iconsolidate 0 c) ;; Ret (NInner c')
        end ;;
  Cas (s_id s) (s_ptr s) n' (fun r =>
    match r with
    | Some p => Ret {| s_id := s_id s; s_ptr := p; s_node := n' |}
    | None => Ret s
    end).

(** TryConsolidateNode (6376-6415). *)
Definition try_consolidate (x : ctx) : prog ctx :=
  let n := s_node (cur x) in
  if is_delta n then
    let deep := match n with
                | NLeaf c => LEAF_CHAIN_LEN <=? ldepth c
                | NInner c => INNER_CHAIN_LEN <=? idepth c
                end in
    if deep then s <- consolidate (cur x) ;; Ret (set_cur x s) else Ret x
  else Ret x.

(** GetLowKeyNodeID of the parent (5172-5178, 1305-1309). *)
Definition parent_inner (s : snap) : prog ichain :=
  match s_node s with NInner c => Ret c | NLeaf _ => Err EAssert end.

(** PostAbortOnParent (6839-6878), the CAS of the remove delta and
    RemoveAbortOnParent (6793-6825): always ends in an abort. *)
Definition post_remove (ps s : snap) (rem : node) : prog (option ctx) :=
  c <- parent_inner ps ;;
  Cas (s_id ps) (s_ptr ps) (NInner (IAbort (s_ptr ps) c)) (fun r =>
    match r with
    | None => Ret None
    | Some ap =>
        Cas (s_id s) (s_ptr s) rem (fun _ =>
          CasPtr (s_id ps) ap (s_ptr ps) (fun ok => if ok then Ret None else Err EAssert))
    end).

(** AdjustNodeSize (6429-6785). *)
Definition adjust (x : ctx) : prog (option ctx) :=
  let s := cur x in
  match s_node s with
  | NLeaf (LBase low items high as c) =>
      let n := length items in
      if LEAF_SIZE_UPPER <=? n then
        sib <- lift (lsplit_sibling c) ;;
        match sib with
        | None => Ret (Some x)
        | Some (LBase (Some k) si h as sc) =>
            NewNode (NLeaf sc) (fun i =>
              Cas (s_id s) (s_ptr s) (NLeaf (LSplit k i (length si) c)) (fun r =>
                match r with Some _ => Ret None | None => Ret (Some x) end))
        | Some _ => Err EAssert
        end
      else if n <=? LEAF_SIZE_LOWER then
        match prt x with
        | PUninit | PRoot => Err EUninit                     (* IsOnLeftMostChild reads the parent's node *)
        | PNode ps =>
            c' <- parent_inner ps ;;
            if ilid c' =? s_id s then Ret (Some x)
            else post_remove ps s (NLeaf (LRemove (s_id s) c))
        end
      else Ret (Some x)
  | NInner (IBase d low lid items high as c) =>
      let n := length items in
      if INNER_SIZE_UPPER <=? n then
        sib <- lift (isplit_sibling c) ;;
        match sib with
        | IBase _ (Some k) first si _ =>
            PLoad first (fun f =>
              if is_remove (snd f) then Ret (Some x)
              else NewNode (NInner sib) (fun i =>
                Cas (s_id s) (s_ptr s) (NInner (ISplit k i (length si) c)) (fun r =>
                  match r with Some _ => Ret None | None => Ret (Some x) end)))
        | _ => Err EAssert
        end
      else if n <=? INNER_SIZE_LOWER then
        match prt x with
        | PUninit => Err EUninit                             (* IsOnRootNode reads the parent's id *)
        | PRoot => Ret (Some x)
        | PNode ps =>
            c' <- parent_inner ps ;;
            if ilid c' =? s_id s then Ret (Some x)
            else post_remove ps s (NInner (IRemove (s_id s) c))
        end
      else Ret (Some x)
  | _ => Ret (Some x)
  end.

(** FindLeftSibling on the parent snapshot (7045-7271): the id found and the
    parent snapshot, replaced if a merge delta made it consolidate. *)
Definition find_left (k : K) (ps : snap) : prog (nat * snap) :=
  c <- parent_inner ps ;;
  r <- lift (ileft k c) ;;
  match r with
  | Some i => Ret (i, ps)
  | None =>
      c' <- lift (iconsolidate (S (idepth c)) c) ;;
      Cas (s_id ps) (s_ptr ps) (NInner c') (fun o =>
        let ps' := match o with
                   | Some p => {| s_id := s_id ps; s_ptr := p; s_node := NInner c' |}
                   | None => ps
                   end in
        r' <- lift (ileft k c') ;;
        match r' with Some i => Ret (i, ps') | None => Err EAssert end)
  end.

(** Help-along.  [jump] is JumpToNodeID. *)
Section Finish.
Variable jump : nat -> ctx -> prog (option ctx).

(** JumpToLeftSibling (5199-5285).  In the two cases without a parent node
    the code reads the indeterminate parent pointer (with assertions enabled,
    HasParentNode() fails first). *)
Definition jump_left (x : ctx) : prog (option ctx) :=
  match prt x with
  | PUninit | PRoot => Err EUninit
  | PNode ps =>
      c <- parent_inner ps ;;
      if ilid c =? s_id (cur x) then Ret None
      else PLoad (s_id ps) (fun y =>
        if N.eqb (fst y) (s_ptr ps) then
          f <- find_left (rawlow (nlow (s_node (cur x)))) ps ;;
          o <- jump (fst f) (set_par x (snd f)) ;;
          match o with
          | None => Ret None
          | Some x' =>
              match nhigh (s_node (cur x')) with
              | Some (_, n) => if n =? s_id (cur x) then Ret (Some x') else Ret None
              | None => Ret None
              end
          end
        else Ret None)
  end.

(** FinishPartialSMO, merge delta (6026-6110) with PostInnerDeleteNode
    (5781-5857).  [dk], [di]: the deleted item; [nx]: high key pair of the
    right branch. *)
Definition finish_merge (x : ctx) (dk : K) (di : nat) (nx : option (K * nat)) : prog (option ctx) :=
  match prt x with
  | PUninit | PRoot => Err EUninit
  | PNode ps =>
      PLoad (s_id ps) (fun y =>
        if N.eqb (fst y) (s_ptr ps) then
          c <- parent_inner ps ;;
          r <- lift (isearch dk c) ;;
          match r with
          | (None, _) => Ret (Some x)
          | (Some (_, fi), loc) =>
              if fi =? di then
                let c' := IDel (dk, di) (rawlow (nlow (s_node (cur x))), s_id (cur x)) nx loc c in
                Cas (s_id ps) (s_ptr ps) (NInner c') (fun o =>
                  match o with
                  | None => Ret None
                  | Some p =>
                      PLoad di (fun g =>
                        if is_remove (snd g) then
                          s <- consolidate (cur x) ;;
                          Ret (Some (set_cur (set_par x {| s_id := s_id ps; s_ptr := p; s_node := NInner c' |}) s))
                        else Err EAssert)
                  end)
              else Err EAssert
          end
        else Ret None)
  end.

(** FinishPartialSMO, split delta (6112-6278) with PostInnerInsertNode
    (5717-5770).  [nx]: high key pair of the node under the split delta.  The
    assertion under BWTREE_DEBUG (6253-6256) is not modelled. *)
Definition finish_split (x : ctx) (k : K) (sib : nat) (nx : option (K * nat)) : prog (option ctx) :=
  match prt x with
  | PUninit => Err EUninit
  | PRoot =>
      let i := s_id (cur x) in
      NewNode (NInner (IBase 0 None i [(kdef, i); (k, sib)] None)) (fun r =>
        CasRoot i r (fun _ => Ret None))
  | PNode ps =>
      c <- parent_inner ps ;;
      if match ihigh c with Some (h, _) => kge k h | None => false end then Ret (Some x)
      else
        r <- lift (isearch k c) ;;
        match r with
        | (Some (_, fi), _) => if fi =? sib then Ret (Some x) else Ret None
        | (None, loc) =>
            let c' := IIns (k, sib) nx loc c in
            Cas (s_id ps) (s_ptr ps) (NInner c') (fun o =>
              match o with
              | None => Ret None
              | Some p =>
                  s <- consolidate (cur x) ;;
                  Ret (Some (set_cur (set_par x {| s_id := s_id ps; s_ptr := p; s_node := NInner c' |}) s))
              end)
        end
  end.

(** FinishPartialSMO (5878-6285): skipping abort nodes (5886-5897). *)
Fixpoint strip (p : N) (c : ichain) : N * ichain :=
  match c with IAbort p' c' => strip p' c' | _ => (p, c) end.
Definition strip_snap (s : snap) : snap :=
  match s_node s with
  | NLeaf _ => s
  | NInner c => let '(p, c') := strip (s_ptr s) c in {| s_id := s_id s; s_ptr := p; s_node := NInner c' |}
  end.
Definition finish_smo (x : ctx) : prog (option ctx) :=
  let x := set_cur x (strip_snap (cur x)) in
  let del := s_id (cur x) in
  match s_node (cur x) with
  | NLeaf (LRemove _ rc) =>                                  (* 5898-5968 *)
      o <- jump_left x ;;
      match o with
      | None => Ret None
      | Some x' =>
          match s_node (cur x') with
          | NLeaf lc =>
              match lhigh lc with
              | None => Err ENull
              | Some (mk, _) =>
                  Cas (s_id (cur x')) (s_ptr (cur x')) (NLeaf (LMerge mk del rc lc)) (fun r =>
                    match r with
                    | None => Ret None
                    | Some p =>
                        finish_merge (set_cur x' {| s_id := s_id (cur x'); s_ptr := p; s_node := NLeaf (LMerge mk del rc lc) |})
                                     mk del (lhigh rc)
                    end)
              end
          | NInner _ => Err EKind
          end
      end
  | NInner (IRemove _ rc) =>
      o <- jump_left x ;;
      match o with
      | None => Ret None
      | Some x' =>
          match s_node (cur x') with
          | NInner lc =>
              match ihigh lc with
              | None => Err ENull
              | Some (mk, _) =>
                  Cas (s_id (cur x')) (s_ptr (cur x')) (NInner (IMerge mk del rc lc)) (fun r =>
                    match r with
                    | None => Ret None
                    | Some p =>
                        finish_merge (set_cur x' {| s_id := s_id (cur x'); s_ptr := p; s_node := NInner (IMerge mk del rc lc) |})
                                     mk del (ihigh rc)
                    end)
              end
          | NLeaf _ => Err EKind
          end
      end
  | NLeaf (LMerge mk i r _) => finish_merge x mk i (lhigh r)
  | NInner (IMerge mk i r _) => finish_merge x mk i (ihigh r)
  | NLeaf (LSplit k sib _ c) => finish_split x k sib (lhigh c)
  | NInner (ISplit k sib _ c) => finish_split x k sib (ihigh c)
  | _ => Ret (Some x)
  end.

(** The common tail of LoadNodeID (5384-5409) and JumpToNodeID (5417-5438). *)
Definition settle (x : ctx) : prog (option ctx) :=
  o <- finish_smo x ;;
  match o with
  | None => Ret None
  | Some x' => x'' <- try_consolidate x' ;; adjust x''
  end.
End Finish.

(** JumpToNodeID (5417-5438), with UpdateNodeSnapshot (5343-5363). *)
Fixpoint jump_to (fuel : nat) (i : nat) (x : ctx) : prog (option ctx) :=
  match fuel with
  | O => Err EFuel
  | S f =>
      PLoad i (fun y =>
        if Bool.eqb (is_leaf (snd y)) (is_leaf (s_node (cur x))) && negb (s_id (cur x) =? i)
        then settle (jump_to f) (set_cur x {| s_id := i; s_ptr := fst y; s_node := snd y |})
        else Err EAssert)
  end.

(** LoadNodeID (5384-5409), with TakeNodeSnapshot (5295-5320): [p] is the
    previous current snapshot. *)
Definition load_node (fuel : nat) (k : K) (p : par) (i : nat) : prog (option ctx) :=
  PLoad i (fun y => settle (jump_to fuel) {| key := k; cur := {| s_id := i; s_ptr := fst y; s_node := snd y |}; prt := p |}).

(** NavigateSiblingChain (3385-3420); [go] decides on moving right ([kge], or
    [kgt] for NavigateSiblingChainBI, 3430-3452). *)
Fixpoint sibling_chain (go : K -> K -> bool) (fuel : nat) (x : ctx) : prog (option ctx) :=
  match fuel with
  | O => Err EFuel
  | S f =>
      match nhigh (s_node (cur x)) with
      | Some (h, n) =>
          if go (key x) h then
            o <- jump_to f n x ;;
            match o with None => Ret None | Some x' => sibling_chain go f x' end
          else Ret (Some x)
      | None => Ret (Some x)
      end
  end.

(** NavigateInnerNode(Context) (3534-3729): sibling chain, then the child. *)
Definition nav_inner (go : K -> K -> bool) (nav : K -> ichain -> res nat) (fuel : nat) (x : ctx)
  : prog (option (nat * ctx)) :=
  o <- sibling_chain go fuel x ;;
  match o with
  | None => Ret None
  | Some x' =>
      match s_node (cur x') with
      | NInner c => i <- lift (nav (key x') c) ;; Ret (Some (i, x'))
      | NLeaf _ => Err EAssert
      end
  end.

(** The loop of Traverse (3266-3300) and TraverseBI (5558-5586): down to a leaf. *)
Fixpoint descend (go : K -> K -> bool) (nav : K -> ichain -> res nat) (fuel : nat) (x : ctx) : prog (option ctx) :=
  match fuel with
  | O => Err EFuel
  | S f =>
      o <- nav_inner go nav f x ;;
      match o with
      | None => Ret None
      | Some (i, x') =>
          o' <- load_node f (key x') (PNode (cur x')) i ;;
          match o' with
          | None => Ret None
          | Some y => if is_leaf (s_node (cur y)) then Ret (Some y) else descend go nav f y
          end
      end
  end.

(** One attempt: root, descent, and the sibling chain on the leaf level
    (3246-3321, 5549-5586). *)
Definition attempt (go : K -> K -> bool) (nav : K -> ichain -> res nat) (fuel : nat) (k : K) : prog (option ctx) :=
  LoadRoot (fun r =>
    o <- load_node fuel k PRoot r ;;
    match o with
    | None => Ret None
    | Some x =>
        o' <- descend go nav fuel x ;;
        match o' with None => Ret None | Some y => sibling_chain go fuel y end
    end).

(** Traverse (3232-3360) and TraverseBI (5543-5602): retry until no abort. *)
Fixpoint traverse_with (go : K -> K -> bool) (nav : K -> ichain -> res nat) (fuel : nat) (k : K) : prog ctx :=
  match fuel with
  | O => Err EFuel
  | S f =>
      o <- attempt go nav f k ;;
      match o with None => traverse_with go nav f k | Some x => Ret x end
  end.
Definition traverse := traverse_with kge inavigate.
Definition traverseBI := traverse_with kgt inavBI.

Definition leaf_of (x : ctx) : prog lchain :=
  match s_node (cur x) with NLeaf c => Ret c | NInner _ => Err EAssert end.

(** * Operations *)
(** Insert (7353-7433).  [fuel] bounds the retries. *)
Fixpoint insert (fuel : nat) (k : K) (v : V) : prog bool :=
  match fuel with
  | O => Err EFuel
  | S f =>
      x <- traverse f k ;;
      c <- leaf_of x ;;
      r <- lift (lcheck k v c) ;;
      if fst r then Ret false
      else Cas (s_id (cur x)) (s_ptr (cur x)) (NLeaf (LIns k v (snd r) c)) (fun o =>
             match o with Some _ => Ret true | None => insert f k v end)
  end.

(** Delete (7556-7627). *)
Fixpoint delete (fuel : nat) (k : K) (v : V) : prog bool :=
  match fuel with
  | O => Err EFuel
  | S f =>
      x <- traverse f k ;;
      c <- leaf_of x ;;
      r <- lift (lcheck k v c) ;;
      if fst r then
        Cas (s_id (cur x)) (s_ptr (cur x)) (NLeaf (LDel k v (snd r) c)) (fun o =>
          match o with Some _ => Ret true | None => delete f k v end)
      else Ret false
  end.

(** ConditionalInsert (7449-7543): the result and *predicate_satisfied. *)
Fixpoint cond_insert (fuel : nat) (k : K) (v : V) (pred : V -> bool) : prog (bool * bool) :=
  match fuel with
  | O => Err EFuel
  | S f =>
      x <- traverse f k ;;
      c <- leaf_of x ;;
      r <- lift (lcond pred k v c) ;;
      match r with
      | CSatisfied => Ret (false, true)
      | CExists => Ret (false, false)
      | CAbsent ix =>
          Cas (s_id (cur x)) (s_ptr (cur x)) (NLeaf (LIns k v ix c)) (fun o =>
            match o with Some _ => Ret (true, false) | None => cond_insert f k v pred end)
      end
  end.

(** LoadNodeIDReadOptimized (5524-5536) with FinishPartialSMOReadOptimized
    (5449-5481) and TakeNodeSnapshotReadOptimized (5493-5514): the parent
    snapshot is not written. *)
Definition load_ro (k : K) (i : nat) : prog (option ctx) :=
  PLoad i (fun y =>
    let s := strip_snap {| s_id := i; s_ptr := fst y; s_node := snd y |} in
    if is_remove (s_node s) then Ret None
    else Ret (Some {| key := k; cur := s; prt := PUninit |})).
(** TraverseReadOptimized (5604-5703). *)
Fixpoint descend_ro (fuel : nat) (x : ctx) : prog (option ctx) :=
  match fuel with
  | O => Err EFuel
  | S f =>
      o <- nav_inner kge inavigate f x ;;
      match o with
      | None => Ret None
      | Some (i, x') =>
          o' <- load_ro (key x') i ;;
          match o' with
          | None => Ret None
          | Some y => if is_leaf (s_node (cur y)) then sibling_chain kge f y else descend_ro f y
          end
      end
  end.
(** GetValue (7638-7687); NavigateLeafNode collects the values (4225-4417).
    (The second overload only copies the list into an unordered set.) *)
Fixpoint get_value (fuel : nat) (k : K) : prog (list V) :=
  match fuel with
  | O => Err EFuel
  | S f =>
      LoadRoot (fun r =>
        o <- load_ro k r ;;
        match o with
        | None => get_value f k
        | Some x =>
            o' <- descend_ro f x ;;
            match o' with
            | None => get_value f k
            | Some y => c <- leaf_of y ;; lift (lvalues k c)
            end
        end)
  end.

(** Run a program alone (single-threaded use). *)
Fixpoint prun {A} (m : mem) (p : prog A) : mem * res A :=
  match p with
  | Ret a => (m, Ok a)
  | Err e => (m, Er e)
  | PLoad i k => match get m i with Some x => prun m (k x) | None => (m, Er ENull) end
  | Cas i o n k =>
      match tab m i with
      | Some p' =>
          if N.eqb p' o then
            prun {| heap := pfset (heap m) (nptr m) n; nptr := N.succ (nptr m);
                    tab := fset (tab m) i (nptr m); nid := nid m; root := root m |} (k (Some (nptr m)))
          else prun m (k None)
      | None => prun m (k None)
      end
  | CasPtr i o n k =>
      match tab m i with
      | Some p' =>
          if N.eqb p' o then
            prun {| heap := heap m; nptr := nptr m; tab := fset (tab m) i n; nid := nid m; root := root m |} (k true)
          else prun m (k false)
      | None => prun m (k false)
      end
  | LoadRoot k => prun m (k (root m))
  | CasRoot o n k =>
      if root m =? o
      then prun {| heap := heap m; nptr := nptr m; tab := tab m; nid := nid m; root := n |} (k true)
      else prun m (k false)
  | NewNode n k =>
      prun {| heap := pfset (heap m) (nptr m) n; nptr := N.succ (nptr m);
              tab := fset (tab m) (nid m) (nptr m); nid := S (nid m); root := root m |} (k (nid m))
  end.
End Tree.
Arguments Ret {P A}. Arguments Err {P A}. Arguments PLoad {P A}. Arguments Cas {P A}. Arguments CasPtr {P A}.
Arguments LoadRoot {P A}. Arguments CasRoot {P A}. Arguments NewNode {P A}.
