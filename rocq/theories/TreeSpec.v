(** Specification of the whole index: what it stores, what each operation
    should do, which executions exist, and linearizability.  Nothing here
    refers to how operations search or restructure the tree. *)
From Coq Require Import List Arith Bool ZArith.
From Verif Require Import Base Leaf LeafSpec Inner Tree.
Import ListNotations.

Section TreeSpec.
Context {P : Params}.

Definition node_of (m : mem) (i : nat) : option node := option_map snd (get m i).

(** Leaf pages linked from the first leaf through right-neighbour ids. *)
Inductive reach (m : mem) : nat -> Prop :=
| R_first : reach m FIRST_LEAF
| R_next i c h n : reach m i -> node_of m i = Some (NLeaf c) -> lhigh c = Some (h, n) -> reach m n.

(** The pairs stored in the index. *)
Definition contents (m : mem) (k : K) (v : V) : Prop :=
  exists i c, reach m i /\ node_of m i = Some (NLeaf c) /\ in_range c k /\ lmem c k v.

(** * Operations and their atomic effect on a set of pairs *)
Definition pairs := K -> V -> Prop.
Definition same (A B : pairs) : Prop := forall k v, A k v <-> B k v.

Inductive op :=
| OpIns (k : K) (v : V)
| OpDel (k : K) (v : V)
| OpCond (k : K) (v : V) (pred : V -> bool)
| OpGet (k : K)
| OpPage (k : K)                  (* the iterators' page fetch, forward *)
| OpPageBI (k : K)                (* the same, backward *)
| OpFirst.                        (* the page Begin() starts with *)
Inductive resp :=
| RBool (b : bool)
| RCond (b sat : bool)
| RVals (l : list V)
| RPage (low : option K) (items : list (K * V)) (high : option (K * nat)).

(** A page as fetched by an iterator: all pairs of a key range, in order. *)
Definition page_of (A : pairs) low items (high : option (K * nat)) : Prop :=
  ascending items /\ NoDup items /\
  forall k v, In (k, v) items <-> above low k /\ below high k /\ A k v.

(** [full]: whether GetValue is required to be exact; otherwise it may miss
    values, but has to return only stored ones, each once. *)
Definition effect (full : bool) (o : op) (A A' : pairs) (r : resp) : Prop :=
  match o, r with
  | OpIns k v, RBool true => ~ A k v /\ forall k' v', A' k' v' <-> A k' v' \/ (k' = k /\ v' = v)
  | OpIns k v, RBool false => A k v /\ same A A'
  | OpDel k v, RBool true => A k v /\ forall k' v', A' k' v' <-> A k' v' /\ ~ (k' = k /\ v' = v)
  | OpDel k v, RBool false => ~ A k v /\ same A A'
  | OpCond k v pred, RCond true false =>
      ~ A k v /\ (forall x, A k x -> pred x = false) /\ forall k' v', A' k' v' <-> A k' v' \/ (k' = k /\ v' = v)
  | OpCond k v pred, RCond false true => (exists x, A k x /\ pred x = true) /\ same A A'
  | OpCond k v pred, RCond false false => A k v /\ same A A'
  | OpGet k, RVals l =>
      ((full = true -> NoDup l /\ forall v, In v l <-> A k v) /\ NoDup l /\ forall v, In v l -> A k v) /\ same A A'
  | OpPage k, RPage low items high =>
      above low k /\ below high k /\ page_of A low items high /\ same A A'
  | OpPageBI k, RPage low items high =>
      match high with None => True | Some (h, _) => klt h k = false end /\ page_of A low items high /\ same A A'
  | OpFirst, RPage low items high => low = None /\ page_of A low items high /\ same A A'
  | _, _ => False
  end.

(** * Executions of the index: any number of threads, one atomic access at a
    time *)
Definition page_resp (c : lchain) : prog resp :=
  match c with LBase low items high => Ret (RPage low items high) | _ => Err EAssert end.
Definition fetch (tr : nat -> K -> prog ctx) (fuel : nat) (k : K) : prog resp :=
  (* Traverse, then CollectAllValuesOnLeaf into an IteratorContext:
     ForwardIterator::LowerBound 9173-9226, MoveBackByOne 9261-9345 *)
  pbind (tr fuel k) (fun x => pbind (leaf_of x) (fun c => pbind (lift (lconsolidate c)) page_resp)).
Definition first_page : prog resp :=
  (* the constructor used by Begin(), 8774-8801 *)
  PLoad FIRST_LEAF (fun y =>
    match snd y with
    | NLeaf c => pbind (lift (lconsolidate c)) page_resp
    | NInner _ => Err EAssert
    end).
Definition code (fuel : nat) (o : op) : prog resp :=
  match o with
  | OpIns k v => pbind (insert fuel k v) (fun b => Ret (RBool b))
  | OpDel k v => pbind (delete fuel k v) (fun b => Ret (RBool b))
  | OpCond k v pred => pbind (cond_insert fuel k v pred) (fun x => Ret (RCond (fst x) (snd x)))
  | OpGet k => pbind (get_value fuel k) (fun l => Ret (RVals l))
  | OpPage k => fetch traverse fuel k
  | OpPageBI k => fetch traverseBI fuel k
  | OpFirst => first_page
  end.

Definition tset {A} (f : nat -> A) (t : nat) (x : A) : nat -> A := fun u => if u =? t then x else f u.

Inductive event := ECall (t : nat) (o : op) | EStep (t : nat) | ERet (t : nat) (o : op) (r : resp).
Record sys := { sm : mem; running : nat -> option (op * prog resp) }.
Definition sinit : sys := {| sm := minit; running := fun _ => None |}.

(** The fuel of a call is arbitrary, so every finite run of the unbounded
    retry loops is covered.  A thread that has failed ([Err]) stays where it
    is. *)
Inductive sstep : sys -> event -> sys -> Prop :=
| S_call s t o fuel : running s t = None ->
    sstep s (ECall t o) {| sm := sm s; running := tset (running s) t (Some (o, code fuel o)) |}
| S_step s t o p : running s t = Some (o, p) -> (forall r, p <> Ret r) -> (forall e, p <> Err e) ->
    sstep s (EStep t) {| sm := fst (pstep (sm s) p); running := tset (running s) t (Some (o, snd (pstep (sm s) p))) |}
| S_ret s t o r : running s t = Some (o, Ret r) ->
    sstep s (ERet t o r) {| sm := sm s; running := tset (running s) t None |}.
(** Executions, latest event first; [ss] lists all states passed. *)
Inductive exec : list event -> list sys -> sys -> Prop :=
| X_init : exec [] [sinit] sinit
| X_step tr ss s e s' : exec tr ss s -> sstep s e s' -> exec (e :: tr) (s' :: ss) s'.

(** * Linearizability: every visible trace is one of the atomic object, in
    which an operation takes effect in a single step between call and return *)
Inductive status := Idle | Called (o : op) | Done (o : op) (r : resp).
Inductive aevent := ACall (t : nat) (o : op) | ALin (t : nat) | ARet (t : nat) (o : op) (r : resp).
Inductive astep (full : bool) : pairs * (nat -> status) -> aevent -> pairs * (nat -> status) -> Prop :=
| A_call A st t o : st t = Idle -> astep full (A, st) (ACall t o) (A, tset st t (Called o))
| A_lin A A' st t o r : st t = Called o -> effect full o A A' r -> astep full (A, st) (ALin t) (A', tset st t (Done o r))
| A_ret A st t o r : st t = Done o r -> astep full (A, st) (ARet t o r) (A, tset st t Idle).
Inductive aexec (full : bool) : list aevent -> pairs * (nat -> status) -> Prop :=
| AX_init : aexec full [] ((fun _ _ => False), (fun _ => Idle))
| AX_step tr a e a' : aexec full tr a -> astep full a e a' -> aexec full (e :: tr) a'.

(** What the callers see. *)
Inductive vis := VCall (t : nat) (o : op) | VRet (t : nat) (o : op) (r : resp).
Definition visible (tr : list event) : list vis :=
  flat_map (fun e => match e with ECall t o => [VCall t o] | ERet t o r => [VRet t o r] | EStep _ => [] end) tr.
Definition avisible (tr : list aevent) : list vis :=
  flat_map (fun e => match e with ACall t o => [VCall t o] | ARet t o r => [VRet t o r] | ALin _ => [] end) tr.

(** [tr], ending with contents [m], is explained by the atomic object. *)
Definition linearizable (full : bool) (tr : list event) (m : mem) : Prop :=
  exists atr A st, aexec full atr (A, st) /\ avisible atr = visible tr /\ same A (contents m).

(** No page of the index has a data update above a merge that is not yet
    consolidated. *)
Definition leaves_clean (m : mem) : Prop := forall i c, reach m i -> node_of m i = Some (NLeaf c) -> clean c.
(** The page to which [k] belongs has none. *)
Definition page_clean (m : mem) (k : K) : Prop := forall i c, reach m i -> node_of m i = Some (NLeaf c) -> in_range c k -> clean c.
(** What is needed for the result of an operation to be exact. *)
Definition exact_at (o : op) (m : mem) : Prop := match o with OpGet k => page_clean m k | _ => True end.
End TreeSpec.
