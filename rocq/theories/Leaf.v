(** Model of leaf pages: delta chains, point lookups, value collection,
    consolidation and splitting (bwtree.h). *)
From Coq Require Import List Arith Lia Bool ZArith NArith.
From Verif Require Import Base SmallSet Bloom.
Import ListNotations.

(** bwtree.h 139-162. *)
Definition LEAF_SIZE_UPPER : nat := 128.
Definition LEAF_SIZE_LOWER : nat := 32.
Definition LEAF_CHAIN_LEN : nat := 8.

Section Leaf.
Context {P : Params}.

(** A leaf page: the chain of delta nodes ending in a base node
    (bwtree.h 1110-1833, 2480-2626).  Nodes are immutable after they have been
    published, so a chain is an inductive value and a child pointer is the
    child itself.  Node ids are [nat].
    - [LBase low items high]: LeafNode; [low = None] when the low key pair has
      INVALID_NODE_ID, [high = None] when the high key pair has it.
    - [LIns]/[LDel k v (index, flag) child]: LeafInsertNode, LeafDeleteNode (1420-1475).
    - [LSplit key sibling sibling_count child]: LeafSplitNode (1479-1518).
    - [LRemove id child]: LeafRemoveNode (1524-1549).
    - [LMerge key id right child]: LeafMergeNode (1556-1599). *)
Inductive lchain :=
| LBase (low : option K) (items : list (K * V)) (high : option (K * nat))
| LIns (k : K) (v : V) (ix : nat * bool) (c : lchain)
| LDel (k : K) (v : V) (ix : nat * bool) (c : lchain)
| LSplit (k : K) (sib : nat) (sibcount : nat) (c : lchain)
| LRemove (id : nat) (c : lchain)
| LMerge (k : K) (id : nat) (right : lchain) (c : lchain).

(** The metadata of a node (1110-1345) is computed by its constructor from the
    metadata of its child; nodes being immutable, it is modelled by functions
    on the chain (the constructors in 1350-1600).  High key pair: *)
Fixpoint lhigh (c : lchain) : option (K * nat) :=
  match c with
  | LBase _ _ h => h
  | LIns _ _ _ c | LDel _ _ _ c | LRemove _ c => lhigh c
  | LSplit k sib _ _ => Some (k, sib)
  | LMerge _ _ r _ => lhigh r
  end.
(** Low key pair: always that of the child. *)
Fixpoint llow (c : lchain) : option K :=
  match c with
  | LBase l _ _ => l
  | LIns _ _ _ c | LDel _ _ _ c | LRemove _ c | LSplit _ _ _ c | LMerge _ _ _ c => llow c
  end.
(** Depth: data deltas add one, structural deltas do not; merge adds up. *)
Fixpoint ldepth (c : lchain) : nat :=
  match c with
  | LBase _ _ _ => 0
  | LIns _ _ _ c | LDel _ _ _ c => S (ldepth c)
  | LRemove _ c | LSplit _ _ _ c => ldepth c
  | LMerge _ _ r c => ldepth c + ldepth r
  end.
(** Item count (an int). *)
Fixpoint lcount (c : lchain) : Z :=
  match c with
  | LBase _ items _ => Z.of_nat (length items)
  | LIns _ _ _ c => lcount c + 1
  | LDel _ _ _ c => lcount c - 1
  | LSplit _ _ n c => lcount c - Z.of_nat n
  | LRemove _ c => lcount c
  | LMerge _ _ r c => lcount c + lcount r
  end.

(** std::lower_bound over pairs with key_value_pair_cmp_obj (4295, 4476, 4669, 4957). *)
Definition lower_bound {B} (k : K) (l : list (K * B)) : nat := bsearch (fun x => klt (fst x) k) l.

(** * NavigateLeafNode, existence check (bwtree.h 4438-4599)
    Result: whether a matching pair was found, and the index pair written
    through [index_pair_p].  The sibling chain has been navigated by the caller. *)
(** The scan of the run of equal keys in the base page (4482-4512); [i] is the
    position of the head of [l]. *)
Fixpoint lscan (k : K) (v : V) (i : nat) (l : list (K * V)) : bool * (nat * bool) :=
  match l with
  | [] => (false, (i, false))
  | x :: r =>
      if keq (fst x) k
      then if veq (snd x) v then (true, (i, true)) else lscan k v (S i) r
      else (false, (i, false))
  end.
Fixpoint lcheck (k : K) (v : V) (c : lchain) : res (bool * (nat * bool)) :=
  match c with
  | LBase _ items _ =>
      let i := lower_bound k items in Ok (lscan k v i (skipn i items))
  | LIns k' v' ix c =>
      if keq k k' && veq v' v then Ok (true, ix) else lcheck k v c
  | LDel k' v' ix c =>
      if keq k k' && veq v' v then Ok (false, ix) else lcheck k v c
  | LRemove _ _ => Er EAssert
  | LMerge mk _ r c => if kge k mk then lcheck k v r else lcheck k v c
  | LSplit _ _ _ c => lcheck k v c
  end.

(** BloomFilter::Insert into an array of [cap] pointers. *)
Definition binsert {A} (hash : A -> N) (cap : nat) (v : A) (b : bloom) : res bloom :=
  if length (data b) <? cap then Ok (Bloom.insert hash v b) else Er EOverrun.
Definition vseen (v : V) (b : bloom) : bool := Bloom.exists_ veq vhash v b.

(** The elements of the run of key [k] at the front of [l]
    ("while it != End() && KeyCmpEqual(search_key, it->first)"). *)
Fixpoint run_of (k : K) (l : list (K * V)) : list V :=
  match l with
  | [] => []
  | x :: r => if keq k (fst x) then snd x :: run_of k r else []
  end.

(** * NavigateLeafNode, collect values (bwtree.h 4225-4417) *)
Fixpoint lvalues_rec (cap : nat) (k : K) (c : lchain) (present deleted : @bloom V)
         (start : nat) (fin : option nat) : res (list V) :=
  match c with
  | LBase _ items _ =>                                            (* 4281-4323 *)
      let e := match fin with None => length items | Some e => e end in
      if (start <=? e) && (e <=? length items) then
        let i := start + lower_bound k (firstn (e - start) (skipn start items)) in
        Ok (filter (fun v => negb (vseen v deleted) && negb (vseen v present))
                   (run_of k (skipn i items)))
      else Er ERange
  | LIns k' v' ix c =>                                            (* 4324-4348 *)
      if keq k k' then
        if negb (vseen v' deleted) && negb (vseen v' present) then
          do present' <- binsert vhash cap v' present;
          do r <- lvalues_rec cap k c present' deleted start fin;
          Ok (v' :: r)
        else lvalues_rec cap k c present deleted start fin
      else if kgt k k' then lvalues_rec cap k c present deleted (fst ix) fin
      else lvalues_rec cap k c present deleted start (Some (fst ix))
  | LDel k' v' ix c =>                                            (* 4348-4366 *)
      if keq k k' then
        if negb (vseen v' present) then
          do deleted' <- binsert vhash cap v' deleted;
          lvalues_rec cap k c present deleted' start fin
        else lvalues_rec cap k c present deleted start fin
      else if kgt k k' then lvalues_rec cap k c present deleted (fst ix) fin
      else lvalues_rec cap k c present deleted start (Some (fst ix))
  | LRemove _ _ => Er EAssert                                     (* 4367-4371 *)
  | LMerge mk _ r c =>                                            (* 4372-4393 *)
      if kge k mk then lvalues_rec cap k r present deleted start fin
      else lvalues_rec cap k c present deleted start fin
  | LSplit _ _ _ c => lvalues_rec cap k c present deleted start fin  (* 4394-4405 *)
  end.
Definition lvalues (k : K) (c : lchain) : res (list V) :=
  lvalues_rec (ldepth c) k c empty empty 0 None.

(** * NavigateLeafNode, predicate version (bwtree.h 4625-4797) *)
Inductive cond_result :=
| CSatisfied              (* *predicate_satisfied = true, returns nullptr *)
| CExists                 (* returns a pointer to the existing pair *)
| CAbsent (ix : nat * bool).  (* returns nullptr, index pair set *)

Section Pred.
Variable pred : V -> bool.
Fixpoint lcond_base (v : V) (present deleted : @bloom V) (l : list V) : option cond_result :=
  match l with                                                     (* 4675-4695 *)
  | [] => None
  | x :: r =>
      if negb (vseen x deleted) && negb (vseen x present) then
        if pred x then Some CSatisfied
        else if veq v x then Some CExists
        else lcond_base v present deleted r
      else lcond_base v present deleted r
  end.
Fixpoint lcond_rec (cap : nat) (k : K) (v : V) (c : lchain) (present deleted : @bloom V)
  : res cond_result :=
  match c with
  | LBase _ items _ =>
      let i := lower_bound k items in
      let run := run_of k (skipn i items) in
      match lcond_base v present deleted run with
      | Some r => Ok r
      | None => Ok (CAbsent (i + length run, false))
      end
  | LIns k' v' ix c =>                                            (* 4708-4735 *)
      if keq k k' && (negb (vseen v' deleted) && negb (vseen v' present)) then
        do present' <- binsert vhash cap v' present;
        if pred v' then Ok CSatisfied
        else if veq v v' then Ok CExists
        else lcond_rec cap k v c present' deleted
      else lcond_rec cap k v c present deleted
  | LDel k' v' ix c =>                                            (* 4736-4751 *)
      if keq k k' && negb (vseen v' present) then
        do deleted' <- binsert vhash cap v' deleted;
        lcond_rec cap k v c present deleted'
      else lcond_rec cap k v c present deleted
  | LRemove _ _ => Er EAssert
  | LMerge mk _ r c =>
      if kge k mk then lcond_rec cap k v r present deleted
      else lcond_rec cap k v c present deleted
  | LSplit _ _ _ c => lcond_rec cap k v c present deleted
  end.
Definition lcond (k : K) (v : V) (c : lchain) : res cond_result :=
  lcond_rec (ldepth c) k v c empty empty.
End Pred.

(** * CollectAllValuesOnLeaf (bwtree.h 4812-5123) *)
(** LeafDataNode (1378-1418): [d_ins] tells LeafInsertNode from LeafDeleteNode. *)
Record ldata := { d_ins : bool; d_k : K; d_v : V; d_ix : nat * bool }.
Definition d_idx (d : ldata) := fst (d_ix d).
Definition d_fl (d : ldata) := snd (d_ix d).
(** The comparator f1 (4860-4873). *)
Definition dlt (a b : ldata) : bool :=
  if klt (d_k a) (d_k b) then true
  else if keq (d_k a) (d_k b) then d_idx a <? d_idx b else false.
Definition peq (a b : K * V) : bool := keq (fst a) (fst b) && veq (snd a) (snd b).
Definition pseen (x : K * V) (b : bloom) : bool := Bloom.exists_ peq phash x b.

(** PushBack(Begin() + a, Begin() + b) of a base page. *)
Definition slice {B} (l : list B) (a b : nat) : res (list B) :=
  if (a <=? b) && (b <=? length l) then Ok (firstn (b - a) (skipn a l)) else Er ERange.

(** 4973-4993: number of leading elements of the sorted set that belong to
    this page: walk back from the end while the key is not below the high key. *)
Definition sss_end (hk : option (K * nat)) (s : list ldata) : nat :=
  match hk with
  | None => length s
  | Some (h, _) => length s - first_not (fun d => negb (klt (d_k d) h)) (rev s)
  end.

(** 5019-5041: drain the deltas with index [ci]; returns the pushed items,
    [item_overwritten] and the remaining deltas. *)
Fixpoint ldrain (ci : nat) (over : bool) (l : list ldata) : list (K * V) * bool * list ldata :=
  match l with
  | [] => ([], over, [])
  | d :: r =>
      if d_idx d =? ci then
        let '(o, ov, rest) := ldrain ci (over || d_fl d) r in
        ((if d_ins d then (d_k d, d_v d) :: o else o), ov, rest)
      else ([], over, l)
  end.
(** 5000-5053: the merge loop over base items [cs, ce) and the deltas [l] up
    to sss_end_it.  [fuel] is the number of deltas. *)
Fixpoint lloop (fuel : nat) (items : list (K * V)) (cs ce : nat) (l : list ldata)
  : res (list (K * V)) :=
  match l with
  | [] => slice items cs ce
  | d :: _ =>
      match fuel with
      | O => Er EFuel
      | S f =>
          let ci := d_idx d in
          if (cs <=? ci) && (ci <=? ce) then
            do a <- slice items cs ci;
            let '(o, ov, rest) := ldrain ci false l in
            do b <- lloop f items (if ov then S ci else ci) ce rest;
            Ok (a ++ o ++ b)
          else Er EAssert
      end
  end.

(** CollectAllValuesOnLeafRecursive (4928-5123).  [hk] is the high key pair of
    the node the recursive call was entered with (4936); [s] is the sorted
    small set, [ds] the delta set, both with arrays of [cap] pointers.  The
    number of elements ever stored in either is [length (data ds)].
    Result: pushed items, remaining set, delta set. *)
Fixpoint lcollect (cap : nat) (hk : option (K * nat)) (c : lchain)
         (s : list ldata) (ds : @bloom (K * V))
  : res (list (K * V) * list ldata * bloom) :=
  match c with
  | LBase _ items _ =>
      let ce := match hk with None => length items | Some (h, _) => lower_bound h items end in
      let n := sss_end hk s in
      do out <- lloop (length s) items 0 ce (firstn n s);
      Ok (out, skipn n s, ds)
  | LIns k v ix c =>
      if pseen (k, v) ds then lcollect cap hk c s ds
      else do ds' <- binsert phash cap (k, v) ds;
           lcollect cap hk c (insert_nodedup dlt {| d_ins := true; d_k := k; d_v := v; d_ix := ix |} s) ds'
  | LDel k v ix c =>
      if pseen (k, v) ds then lcollect cap hk c s ds
      else do ds' <- binsert phash cap (k, v) ds;
           lcollect cap hk c (insert_nodedup dlt {| d_ins := false; d_k := k; d_v := v; d_ix := ix |} s) ds'
  | LRemove _ _ => Er EAssert
  | LSplit _ _ _ c => lcollect cap hk c s ds
  | LMerge _ _ r c =>
      do x <- lcollect cap (lhigh c) c s ds;
      let '(o1, s1, ds1) := x in
      do y <- lcollect cap (lhigh r) r s1 ds1;
      let '(o2, s2, ds2) := y in
      Ok (o1 ++ o2, s2, ds2)
  end.

(** CollectAllValuesOnLeaf (4812-4905): the new page has room for exactly
    GetItemCount() items; 4901 asserts that it was filled.  (The overrun is
    checked at the end instead of at each PushBack.) *)
Definition lconsolidate (c : lchain) : res lchain :=
  do x <- lcollect (ldepth c) (lhigh c) c [] empty;
  let '(out, _, _) := x in
  if (lcount c <? Z.of_nat (length out))%Z then Er EOverrun
  else if (lcount c =? Z.of_nat (length out))%Z then Ok (LBase (llow c) out (lhigh c))
  else Er EAssert.

(** * Splitting (bwtree.h 2500-2626) *)
(** 2511-2514: walk back from position [i] while it is not the first and its key is [k]. *)
Fixpoint scan_back (k : K) (items : list (K * V)) (i : nat) : nat :=
  match i with
  | O => O
  | S j => match nth_error items i with
           | Some x => if keq (fst x) k then scan_back k items j else i
           | None => i
           end
  end.
(** 2532-2535: walk forward from position [i]. *)
Definition scan_fwd (k : K) (items : list (K * V)) (i : nat) : nat :=
  i + first_not (fun x => keq (fst x) k) (skipn i items).

(** LeafNode::FindSplitPoint (2500-2544); [None] is -1. *)
Definition find_split_point (items : list (K * V)) : res (option nat) :=
  let n := length items in
  let central := Nat.div2 n in
  if 1 <? central then
    match nth_error items central with
    | None => Er ERange
    | Some x =>
        let left := S (scan_back (fst x) items (central - 1)) in
        if LEAF_SIZE_LOWER <? left then Ok (Some left)
        else
          let it := scan_fwd (fst x) items (central + 1) in
          if LEAF_SIZE_LOWER <? n - it then Ok (Some it) else Ok None
    end
  else Er EAssert.

(** LeafNode::GetSplitSibling (2573-2626) on a base page: the sibling page. *)
Definition lsplit_sibling (c : lchain) : res (option lchain) :=
  match c with
  | LBase _ items high =>
      do p <- find_split_point items;
      match p with
      | None => Ok None
      | Some i =>
          match nth_error items i with
          | None => Er ERange
          | Some x => Ok (Some (LBase (Some (fst x)) (skipn i items) high))
          end
      end
  | _ => Er EKind
  end.

End Leaf.
