(** Model of inner pages: delta chains, routing, exact search, left-neighbour
    search, consolidation and splitting (bwtree.h). *)
From Coq Require Import List Arith Lia Bool ZArith NArith.
From Verif Require Import Base SmallSet Leaf.
Import ListNotations.

(** bwtree.h 139-162. *)
Definition INNER_SIZE_UPPER : nat := 128.
Definition INNER_SIZE_LOWER : nat := 32.
Definition INNER_CHAIN_LEN : nat := 8.

(** A separator: key and child id (KeyNodeIDPair). *)
Notation sep := (prod K nat).

Section Inner.
Context {P : Params}.

(** An inner page (bwtree.h 1605-1833, 2389-2458), as for leaf pages an
    inductive value because published nodes are immutable.
    - [IBase depth low lid items high]: InnerNode.  [low = None] stands for
      the key of the leftmost page of a level, which the code fills with
      [KeyType{}] and never reads as a key; [lid] is the NodeID of the low key
      pair; [items] includes the first element.  [depth] is 0 except for pages
      built by FindLeftSibling (7230-7234).  [high = None]: INVALID_NODE_ID.
    - [IIns item next location child] (1643-1665): [location] is an index into
      the base page instead of a pointer.
    - [IDel item prev next location child] (1680-1722).
    - [ISplit key sibling sibling_count child] (1731-1754).
    - [IRemove id child] (1759-1777).
    - [IMerge key id right child] (1782-1814).
    - [IAbort p child] (1819-1833): [p] is the address of the child, needed
      because RemoveAbortOnParent and FinishPartialSMO use it. *)
Inductive ichain :=
| IBase (depth : nat) (low : option K) (lid : nat) (items : list sep) (high : option sep)
| IIns (item : sep) (next : option sep) (loc : nat) (c : ichain)
| IDel (item prev : sep) (next : option sep) (loc : nat) (c : ichain)
| ISplit (k : K) (sib : nat) (sibcount : nat) (c : ichain)
| IRemove (id : nat) (c : ichain)
| IMerge (k : K) (id : nat) (right : ichain) (c : ichain)
| IAbort (p : N) (c : ichain).

(** Metadata, computed by the node constructors (1350-1376, 1605-1833). *)
Fixpoint ihigh (c : ichain) : option sep :=
  match c with
  | IBase _ _ _ _ h => h
  | IIns _ _ _ c | IDel _ _ _ _ c | IRemove _ c | IAbort _ c => ihigh c
  | ISplit k sib _ _ => Some (k, sib)
  | IMerge _ _ r _ => ihigh r
  end.
Fixpoint ilow (c : ichain) : option K :=
  match c with
  | IBase _ l _ _ _ => l
  | IIns _ _ _ c | IDel _ _ _ _ c | IRemove _ c | IAbort _ c | ISplit _ _ _ c | IMerge _ _ _ c => ilow c
  end.
(** GetLowKeyNodeID (1305-1309). *)
Fixpoint ilid (c : ichain) : nat :=
  match c with
  | IBase _ _ i _ _ => i
  | IIns _ _ _ c | IDel _ _ _ _ c | IRemove _ c | IAbort _ c | ISplit _ _ _ c | IMerge _ _ _ c => ilid c
  end.
Fixpoint idepth (c : ichain) : nat :=
  match c with
  | IBase d _ _ _ _ => d
  | IIns _ _ _ c | IDel _ _ _ _ c => S (idepth c)
  | IRemove _ c | IAbort _ c | ISplit _ _ _ c => idepth c
  | IMerge _ _ r c => idepth c + idepth r
  end.
Fixpoint icount (c : ichain) : Z :=
  match c with
  | IBase _ _ _ items _ => Z.of_nat (length items)
  | IIns _ _ _ c => icount c + 1
  | IDel _ _ _ _ c => icount c - 1
  | ISplit _ _ n c => icount c - Z.of_nat n
  | IRemove _ c | IAbort _ c => icount c
  | IMerge _ _ r c => icount c + icount r
  end.

(** std::upper_bound with key_node_id_pair_cmp_obj: first element with a
    greater key. *)
Definition upper_bound {B} (k : K) (l : list (K * B)) : nat := bsearch (fun x => negb (klt k (fst x))) l.

(** Number of elements of the base page found through the low key pair
    (InnerNode::GetNodeHeader, 3577-3582). *)
Fixpoint ilen (c : ichain) : nat :=
  match c with
  | IBase _ _ _ items _ => length items
  | IIns _ _ _ c | IDel _ _ _ _ c | IRemove _ c | IAbort _ c | ISplit _ _ _ c | IMerge _ _ _ c => ilen c
  end.

(** LocateSeparatorByKey (3462-3487) on the positions [start, fin). *)
Definition locate (k : K) (items : list sep) (start fin : nat) : res nat :=
  if (start <=? fin) && (fin <=? length items) then
    let i := start + upper_bound k (firstn (fin - start) (skipn start items)) in
    match i with
    | O => Er ERange
    | S j => match nth_error items j with Some x => Ok (snd x) | None => Er ERange end
    end
  else Er ERange.

Definition before_next (k : K) (next : option sep) : bool :=
  match next with None => true | Some (n, _) => klt k n end.

(** * NavigateInnerNode(Context) after the sibling chain (3546-3729)
    The search window is kept as positions.  (The code keeps pointers; above a
    merge delta they may belong to different base pages, but they are reset
    when the merge delta is passed, 3704-3707.) *)
Fixpoint inav (k : K) (c : ichain) (start fin : nat) : res nat :=
  match c with
  | IBase _ _ _ items _ =>
      match items with [] => Er EAssert | _ => locate k items start fin end
  | IIns (s, i) next loc c =>
      if kge k s then
        if before_next k next then Ok i else inav k c (Nat.max start loc) fin
      else inav k c start (Nat.min fin loc)
  | IDel (s, i) (ps, pi) next loc c =>
      if ((ilid c =? pi) || kge k ps) && before_next k next then Ok pi
      else if kge k s then inav k c (Nat.max loc start) fin
      else inav k c start (Nat.min loc fin)
  | ISplit _ _ _ c => inav k c start fin
  | IMerge mk _ r c => if kge k mk then inav k r 1 (ilen r) else inav k c 1 (ilen c)
  | IRemove _ _ | IAbort _ _ => Er EAssert
  end.
Definition inavigate (k : K) (c : ichain) : res nat := inav k c 1 (ilen c).

(** * NavigateInnerNodeBI after the sibling chain (3743-3862) *)
(** LocateSeparatorByKeyBI (3499-3518). *)
Definition locateBI (k : K) (items : list sep) : res nat :=
  match items with
  | [] => Er EAssert
  | _ :: r =>
      let i := upper_bound k r in          (* Begin() + 1 + i is the upper bound *)
      match nth_error items i with
      | None => Er ERange
      | Some x =>
          if keq (fst x) k then
            match i with
            | O => Er EAssert                (* assert(it != Begin()) *)
            | S j => match nth_error items j with Some y => Ok (snd y) | None => Er ERange end
            end
          else Ok (snd x)
      end
  end.
Fixpoint inavBI (k : K) (c : ichain) : res nat :=
  match c with
  | IBase _ _ _ items _ => locateBI k items
  | IIns (s, i) next _ c => if before_next k next && kgt k s then Ok i else inavBI k c
  | IDel _ (ps, pi) next _ c =>
      if ((ilid c =? pi) || kgt k ps) && before_next k next then Ok pi else inavBI k c
  | ISplit _ _ _ c => inavBI k c
  | IMerge mk _ r c => if kgt k mk then inavBI k r else inavBI k c
  | IRemove _ _ | IAbort _ _ => Er EAssert
  end.

(** * NavigateInnerNode(snapshot, key, location) (6898-7023)
    Exact search; the result is the item found, if any, and the location. *)
Fixpoint isearch_rec (k : K) (lid : nat) (c : ichain) : res (option sep * nat) :=
  match c with
  | IBase _ _ _ items _ =>
      match items with
      | [] => Er ERange                                          (* At(0) *)
      | (_, i0) :: _ =>
          let st := if lid =? i0 then 1 else 0 in
          let it := st + lower_bound k (skipn st items) in
          match nth_error items it with
          | None => Ok (None, it)
          | Some x => if keq (fst x) k then Ok (Some x, it) else Ok (None, it)
          end
      end
  | IIns item _ loc c => if keq (fst item) k then Ok (Some item, loc) else isearch_rec k lid c
  | IDel item _ _ loc c => if keq (fst item) k then Ok (None, loc) else isearch_rec k lid c
  | ISplit _ _ _ c => isearch_rec k lid c
  | IMerge mk _ r c => if kge k mk then isearch_rec k lid r else isearch_rec k lid c
  | IRemove _ _ | IAbort _ _ => Er EAssert
  end.
Definition isearch (k : K) (c : ichain) : res (option sep * nat) :=
  match ihigh c with
  | Some (h, _) => if klt k h then isearch_rec k (ilid c) c else Er EAssert
  | None => isearch_rec k (ilid c) c
  end.

(** * CollectAllSepsOnInner (3880-4192) *)
(** InnerDataNode (1605-1632): an insert or a delete of a separator. *)
Record idata := { s_ins : bool; s_item : sep }.
Definition slt (a b : idata) : bool := klt (fst (s_item a)) (fst (s_item b)).
Definition seq_ (a b : idata) : bool := keq (fst (s_item a)) (fst (s_item b)).

(** SortedSmallSet::Insert with an array of [cap] pointers. *)
Definition sinsert (lt : idata -> idata -> bool) (cap : nat) (d : idata) (s : list idata) : res (list idata) :=
  let s' := SmallSet.insert lt seq_ d s in
  if length s' <=? cap then Ok s' else Er EOverrun.

(** 4002-4025: leading elements of the set below the high key. *)
Definition isss_end (hk : option sep) (s : list idata) : nat :=
  match hk with
  | None => length s
  | Some (h, _) => length s - first_not (fun d => negb (klt (fst (s_item d)) h)) (rev s)
  end.

(** 4029-4110: the two-way merge of base items and deltas. *)
Fixpoint imerge (fuel : nat) (a : list sep) (d : list idata) : res (list sep) :=
  match a, d with
  | _, [] => Ok a
  | [], x :: d' =>
      match fuel with
      | O => Er EFuel
      | S f => do r <- imerge f [] d'; Ok (if s_ins x then s_item x :: r else r)
      end
  | y :: a', x :: d' =>
      match fuel with
      | O => Er EFuel
      | S f =>
          if klt (fst y) (fst (s_item x)) then do r <- imerge f a' d; Ok (y :: r)
          else if klt (fst (s_item x)) (fst y) then
            do r <- imerge f a d'; Ok (if s_ins x then s_item x :: r else r)
          else do r <- imerge f a' d'; Ok (if s_ins x then s_item x :: r else r)
      end
  end.

(** 4122-4125, 4143-4145: a delta must lie below the high key. *)
Definition idelta_ok (hk : option sep) (k : K) : bool :=
  match hk with None => true | Some (h, _) => klt k h end.

(** CollectAllSepsOnInnerRecursive (3950-4192). *)
Fixpoint icollect (cap : nat) (lid : nat) (hk : option sep) (c : ichain) (s : list idata)
  : res (list sep * list idata) :=
  match c with
  | IBase _ _ _ items _ =>
      match items with
      | [] => match hk with None => Er EAssert | Some _ => Er ERange end
      | (_, i0) :: _ =>
          let ce := match hk with None => length items
                    | Some (h, _) => 1 + lower_bound h (skipn 1 items) end in
          let cs := if i0 =? lid then 1 else 0 in
          let n := isss_end hk s in
          do a <- slice items cs ce;
          do out <- imerge (length a + n) a (firstn n s);
          Ok (out, skipn n s)
      end
  | IIns item _ _ c =>
      if idelta_ok hk (fst item)
      then do s' <- sinsert slt cap {| s_ins := true; s_item := item |} s; icollect cap lid hk c s'
      else Er EAssert
  | IDel item _ _ _ c =>
      if idelta_ok hk (fst item)
      then do s' <- sinsert slt cap {| s_ins := false; s_item := item |} s; icollect cap lid hk c s'
      else Er EAssert
  | ISplit _ _ _ c => icollect cap lid hk c s
  | IMerge _ _ r c =>
      do x <- icollect cap lid (ihigh c) c s;
      let '(o1, s1) := x in
      do y <- icollect cap lid (ihigh r) r s1;
      let '(o2, s2) := y in
      Ok (o1 ++ o2, s2)
  | IRemove _ _ | IAbort _ _ => Er EAssert
  end.

(** CollectAllSepsOnInner (3880-3939).  [lowkey]: the key of the low key pair
    as the code stores it. *)
Definition rawlow (l : option K) : K := match l with None => kdef | Some x => x end.
Definition iconsolidate (depth : nat) (c : ichain) : res ichain :=
  do x <- icollect (idepth c) (ilid c) (ihigh c) c [];
  let '(out, _) := x in
  let items := (rawlow (ilow c), ilid c) :: out in
  if (icount c <? Z.of_nat (length items))%Z then Er EOverrun
  else if (icount c =? Z.of_nat (length items))%Z
       then Ok (IBase depth (ilow c) (ilid c) items (ihigh c))
       else Er EAssert.

(** * FindLeftSibling (7045-7271), except the InnerMergeNode case
    [None]: a merge delta was met; the caller consolidates and starts over. *)
Definition sgt (a b : idata) : bool := klt (fst (s_item b)) (fst (s_item a)).
(** 7113-7178: [i1] is [it1] counted from Begin() + 1, so that 0 stands for
    the position before the first element. *)
Fixpoint ileft_loop (fuel : nat) (items : list sep) (i1 : nat) (s : list idata)
         (counter : nat) (left : option sep) : res nat :=
  match counter with
  | O => match left with Some x => Ok (snd x) | None => Er ENull end
  | S cn =>
      match fuel with
      | O => Er EFuel
      | S f =>
          match s with
          | [] =>
              match i1 with
              | O => Er ERange
              | S j => match nth_error items j with
                       | None => Er ERange
                       | Some x => ileft_loop f items j s cn (Some x)
                       end
              end
          | d :: s' =>
              match i1 with
              | O => Er ERange
              | 1 => if s_ins d then ileft_loop f items i1 s' cn (Some (s_item d))
                     else ileft_loop f items i1 s' counter left
              | S j =>
                  match nth_error items j with
                  | None => Er ERange
                  | Some x =>
                      if keq (fst (s_item d)) (fst x) then
                        if s_ins d then ileft_loop f items j s' cn (Some (s_item d))
                        else ileft_loop f items j s' counter left
                      else if klt (fst (s_item d)) (fst x) then ileft_loop f items j s cn (Some x)
                      else if s_ins d then ileft_loop f items i1 s' cn (Some (s_item d))
                      else ileft_loop f items i1 s' counter left
                  end
              end
          end
      end
  end.
Fixpoint ileft_rec (cap : nat) (k : K) (c : ichain) (s : list idata) : res (option nat) :=
  match c with
  | IBase _ _ _ items _ =>
      let i1 := 1 + upper_bound k (skipn 1 items) in
      do r <- ileft_loop (length s + 3) items i1 s 2 None; Ok (Some r)
  | IIns item _ _ c =>
      if kle (fst item) k
      then do s' <- sinsert sgt cap {| s_ins := true; s_item := item |} s; ileft_rec cap k c s'
      else ileft_rec cap k c s
  | IDel item _ _ _ c =>
      if kle (fst item) k
      then do s' <- sinsert sgt cap {| s_ins := false; s_item := item |} s; ileft_rec cap k c s'
      else ileft_rec cap k c s
  | ISplit _ _ _ c => ileft_rec cap k c s
  | IMerge _ _ _ _ => Ok None
  | IRemove _ _ | IAbort _ _ => Er EAssert
  end.
Definition ileft (k : K) (c : ichain) : res (option nat) :=
  match ihigh c with
  | Some (h, _) => if klt k h then ileft_rec (idepth c) k c [] else Er EAssert
  | None => ileft_rec (idepth c) k c []
  end.

(** * InnerNode::GetSplitSibling (2417-2458) on a base page *)
Definition isplit_sibling (c : ichain) : res ichain :=
  match c with
  | IBase _ _ _ items high =>
      let n := length items in
      if 2 <=? n then
        let i := Nat.div2 n in
        match nth_error items i with
        | None => Er ERange
        | Some x => Ok (IBase 0 (Some (fst x)) (snd x) (skipn i items) high)
        end
      else Er EAssert
  | _ => Er EKind
  end.
End Inner.
