(** What callers can count: the calls that returned and added or removed a
    pair.  These are the counters of the test programs (test/stress_test.cpp
    24-52: tree_size, insert_success, delete_success; test/mixed_test.cpp
    25-48: mixed_insert_success, mixed_delete_success).  Only calls, responses
    and the stored set are mentioned. *)
From Coq Require Import List Arith Bool.
From Verif Require Import Base TreeSpec.
Import ListNotations.

Section BalanceSpec.
Context {P : Params}.

(** The pair that a call with this response has added. *)
Definition added (o : op) (r : resp) : list (K * V) :=
  match o, r with
  | OpIns k v, RBool true => [(k, v)]
  | OpCond k v _, RCond true _ => [(k, v)]
  | _, _ => []
  end.
Definition removed (o : op) (r : resp) : list (K * V) :=
  match o, r with
  | OpDel k v, RBool true => [(k, v)]
  | _, _ => []
  end.
(** All pairs added (removed) by calls that have returned. *)
Definition adds (l : list vis) : list (K * V) :=
  flat_map (fun e => match e with VRet _ o r => added o r | VCall _ _ => [] end) l.
Definition dels (l : list vis) : list (K * V) :=
  flat_map (fun e => match e with VRet _ o r => removed o r | VCall _ _ => [] end) l.
(** How many of them satisfy [f]. *)
Definition count (f : K -> V -> bool) (l : list (K * V)) : nat :=
  length (filter (fun x => f (fst x) (snd x)) l).
Definition all (_ : K) (_ : V) : bool := true.
Definition only (k : K) (v : V) (k' : K) (v' : V) : bool := keq k k' && veq v v'.

(** No call is running. *)
Definition quiet (s : sys) : Prop := forall t, running s t = None.
(** The calls of Insert and ConditionalInsert of a pair. *)
Definition tries (k : K) (v : V) (l : list vis) : nat :=
  length (filter (fun e => match e with
    | VCall _ (OpIns k' v') | VCall _ (OpCond k' v' _) => only k v k' v' | _ => false end) l).
End BalanceSpec.
