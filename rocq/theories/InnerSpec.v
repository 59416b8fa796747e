(** Specification of inner pages, independent of the navigation and rebuild
    functions: which separators a page logically holds, where a key should be
    routed, and which pages the index can build. *)
From Coq Require Import List Arith Bool ZArith Sorted.
From Verif Require Import Base Leaf LeafSpec Inner.
Import ListNotations.

Section InnerSpec.
Context {P : Params}.

(** The logical separators of a page besides its leftmost child [ilid c]. *)
Fixpoint seps (c : ichain) (s : K) (i : nat) : Prop :=
  match c with
  | IBase _ _ _ items _ => In (s, i) (tl items)
  | IIns (s', i') _ _ c => (s = s' /\ i = i') \/ (s <> s' /\ seps c s i)
  | IDel (s', _) _ _ _ c => s <> s' /\ seps c s i
  | ISplit sk _ _ c => klt s sk = true /\ seps c s i
  | IRemove _ c | IAbort _ c => seps c s i
  | IMerge mk _ r c => if klt s mk then seps c s i else (s = mk /\ i = ilid r) \/ seps r s i
  end.

(** The child responsible for a key: greatest separator not exceeding it. *)
Definition routes (c : ichain) (k : K) (i : nat) : Prop :=
  (exists s, seps c s i /\ klt k s = false /\
     forall s' j, seps c s' j -> klt k s' = false -> klt s s' = false) \/
  (i = ilid c /\ forall s j, seps c s j -> klt k s = true).

(** The child immediately to the left of separator [k]. *)
Definition left_of (c : ichain) (k : K) (i : nat) : Prop :=
  (exists s, seps c s i /\ klt s k = true /\
     forall s' j, seps c s' j -> klt s' k = true -> klt s s' = false) \/
  (i = ilid c /\ forall s j, seps c s j -> klt s k = false).

(** [n] is the separator following [k]; if there is none, nothing or a key at
    or above the high key. *)
Definition next_of (c : ichain) (k : K) (n : option sep) : Prop :=
  (exists s i j, n = Some (s, i) /\ seps c s j /\ klt k s = true /\
     forall s' j', seps c s' j' -> klt k s' = true -> klt s' s = false) \/
  ((forall s j, seps c s j -> klt k s = false) /\
   match n with
   | None => True
   | Some (x, _) => match ihigh c with Some (h, _) => klt x h = false | None => False end
   end).

(** Strictly above a low key. *)
Definition sabove (l : option K) (k : K) : Prop :=
  match l with None => True | Some x => klt x k = true end.
Definition iin_range (c : ichain) (k : K) : Prop := above (ilow c) k /\ below (ihigh c) k.

(** Separators strictly ascending. *)
Definition strict {B} (l : list (K * B)) : Prop :=
  StronglySorted (fun a b => klt (fst a) (fst b) = true) l.

(** All inner pages the index can build.  [lowof] gives the low key of each
    child id, which never changes.  [exact] says whether the neighbours
    recorded in the deltas are required to be the true neighbours at the time
    the delta was posted. *)
Inductive ibuilt (exact : bool) (lowof : nat -> option K) : ichain -> Prop :=
| IB_init lid : lowof lid = None -> ibuilt exact lowof (IBase 0 None lid [(kdef, lid)] None)
| IB_root a k b : lowof a = None -> lowof b = Some k ->
    ibuilt exact lowof (IBase 0 None a [(kdef, a); (k, b)] None)
| IB_ins c s i next loc : ibuilt exact lowof c -> sabove (ilow c) s -> below (ihigh c) s ->
    isearch s c = Ok (None, loc) -> lowof i = Some s ->
    (exact = true -> next_of c s next) ->
    ibuilt exact lowof (IIns (s, i) next loc c)
| IB_del c s i prev next loc : ibuilt exact lowof c -> sabove (ilow c) s -> below (ihigh c) s ->
    isearch s c = Ok (Some (s, i), loc) ->
    (forall x, lowof (snd prev) = Some x -> x = fst prev) ->
    (exact = true -> next_of c s next /\ left_of c s (snd prev)) ->
    ibuilt exact lowof (IDel (s, i) prev next loc c)
| IB_split d low lid items high d' k lid' items' sib :
    ibuilt exact lowof (IBase d low lid items high) ->
    isplit_sibling (IBase d low lid items high) = Ok (IBase d' (Some k) lid' items' high) ->
    ibuilt exact lowof (ISplit k sib (length items') (IBase d low lid items high))
| IB_sibling c s : ibuilt exact lowof c -> isplit_sibling c = Ok s -> ibuilt exact lowof s
| IB_merge l r mk rid : ibuilt exact lowof l -> ibuilt exact lowof r ->
    ihigh l = Some (mk, rid) -> ilow r = Some mk -> ibuilt exact lowof (IMerge mk rid r l)
| IB_consolidate c c' d : ibuilt exact lowof c -> iconsolidate d c = Ok c' -> ibuilt exact lowof c'.

(** No merge delta between the top and the base page. *)
Fixpoint imerge_free (c : ichain) : Prop :=
  match c with
  | IBase _ _ _ _ _ => True
  | IIns _ _ _ c | IDel _ _ _ _ c | ISplit _ _ _ c | IRemove _ c | IAbort _ c => imerge_free c
  | IMerge _ _ _ _ => False
  end.
End InnerSpec.
