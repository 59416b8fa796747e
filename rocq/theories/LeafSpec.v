(** Specification of leaf pages, independent of the lookup and rebuild
    functions: which pairs a page logically contains, and which pages the
    operations of the index can build. *)
From Coq Require Import List Arith Bool ZArith Sorted.
From Verif Require Import Base Leaf.
Import ListNotations.

Section LeafSpec.
Context {P : Params}.

(** The logical content of a page: the latest update of a pair decides, the
    base page if there is none; a split cuts off the keys from the split key
    on, a merge continues with the right page from the merge key on. *)
Fixpoint lmem (c : lchain) (k : K) (v : V) : Prop :=
  match c with
  | LBase _ items _ => In (k, v) items
  | LIns k' v' _ c => (k = k' /\ v = v') \/ lmem c k v
  | LDel k' v' _ c => ~ (k = k' /\ v = v') /\ lmem c k v
  | LSplit sk _ _ c => klt k sk = true /\ lmem c k v
  | LRemove _ c => lmem c k v
  | LMerge mk _ r c => if klt k mk then lmem c k v else lmem r k v
  end.

(** Key ranges: [None] is minus (plus) infinity. *)
Definition above (l : option K) (k : K) : Prop :=
  match l with None => True | Some x => klt k x = false end.
Definition below {B} (h : option (K * B)) (k : K) : Prop :=
  match h with None => True | Some (x, _) => klt k x = true end.
Definition in_range (c : lchain) (k : K) : Prop := above (llow c) k /\ below (lhigh c) k.

(** Pairs in ascending key order (equal keys allowed). *)
Definition ascending {B} (l : list (K * B)) : Prop :=
  StronglySorted (fun a b => klt (fst b) (fst a) = false) l.

(** The base page on which [k] is looked up stores the pair. *)
Fixpoint stored (c : lchain) (k : K) (v : V) : Prop :=
  match c with
  | LBase _ items _ => In (k, v) items
  | LIns _ _ _ c | LDel _ _ _ c | LSplit _ _ _ c | LRemove _ c => stored c k v
  | LMerge mk _ r c => if klt k mk then stored c k v else stored r k v
  end.

(** All leaf pages that Insert, Delete, splits, merges and rebuilding can
    produce.  An update is only appended for a key in the page's range and
    with the index pair reported by the preceding lookup; a merge joins
    neighbouring pages.  A conditional insert is included if the pair is not
    stored in the base page (it may have been inserted and deleted since the
    page was last rebuilt); without this condition the rebuild goes wrong,
    see [C05_refuted]. *)
Inductive built : lchain -> Prop :=
| B_init : built (LBase None [] None)
| B_ins c k v ix : built c -> in_range c k -> lcheck k v c = Ok (false, ix) -> built (LIns k v ix c)
| B_del c k v ix : built c -> in_range c k -> lcheck k v c = Ok (true, ix) -> built (LDel k v ix c)
| B_cins pred c k v ix : built c -> in_range c k -> lcond pred k v c = Ok (CAbsent ix) ->
    ~ stored c k v -> built (LIns k v ix c)
| B_split low items high key si sib :
    built (LBase low items high) ->
    lsplit_sibling (LBase low items high) = Ok (Some (LBase (Some key) si high)) ->
    built (LSplit key sib (length si) (LBase low items high))
| B_sibling c s : built c -> lsplit_sibling c = Ok (Some s) -> built s
| B_merge l r mk rid : built l -> built r -> lhigh l = Some (mk, rid) -> llow r = Some mk ->
    built (LMerge mk rid r l)
| B_consolidate c c' : built c -> lconsolidate c = Ok c' -> built c'.

(** No data delta above a merge delta: [clean]. *)
Fixpoint no_merge (c : lchain) : Prop :=
  match c with
  | LBase _ _ _ => True
  | LIns _ _ _ c | LDel _ _ _ c | LSplit _ _ _ c | LRemove _ c => no_merge c
  | LMerge _ _ _ _ => False
  end.
Fixpoint clean (c : lchain) : Prop :=
  match c with
  | LBase _ _ _ => True
  | LIns _ _ _ c | LDel _ _ _ c => no_merge c
  | LSplit _ _ _ c | LRemove _ c => clean c
  | LMerge _ _ r c => clean r /\ clean c
  end.
End LeafSpec.
