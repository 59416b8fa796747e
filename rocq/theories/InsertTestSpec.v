(** The insert tests that start on an empty index (test/random_pattern_test.cpp
    344-382: RandomInsertTest and RandomInsertVerify, test/main.cpp 276-279;
    the insert phases of test/basic_test.cpp 24-33, 60-71, 107-115).  The
    loops are not modelled: the predicates say what the threads running them
    call, and the counter insert_success_counter is the number of calls that
    returned true (it is incremented after each of them, so a thread that
    reads [n] from it does so when at least [n] calls have returned true). *)
From Coq Require Import List Arith ZArith NArith.
From Verif Require Import Base TreeSpec BalanceSpec PrivateSpec IterTest.
Import ListNotations.

Section InsertTestSpec.
Context {P : Params}.
(** Nothing but Insert of pairs of [U], and reading. *)
Definition inserts (U : list (K * V)) (o : op) : Prop :=
  match o with OpIns k v => In (k, v) U | OpDel _ _ | OpCond _ _ _ => False | _ => True end.
Definition only_inserts (U : list (K * V)) (tr : list event) : Prop := forall t o, In (ECall t o) tr -> inserts U o.
(** insert_success_counter. *)
Definition successes (tr : list event) : nat := length (adds (visible tr)).
(** A call of Insert with this pair; such a call that has returned. *)
Definition asked (k : K) (v : V) (tr : list event) : Prop := exists t o, In (ECall t o) tr /\ target o = Some (k, v).
Definition inserted (k : K) (v : V) (tr : list event) : Prop := exists t r, In (ERet t (OpIns k v) r) tr.
End InsertTestSpec.

(** The keys of RandomInsertTest (350, 355-357): (i, i), 0 <= i < n. *)
Definition random_pairs (n : nat) : list (Z * Z) := map (fun i => (Z.of_nat i, Z.of_nat i)) (seq 0 n).
(** The assertions of RandomInsertVerify (375, 376) about GetValue(i). *)
Definition verified (i : Z) (s : list Z) : Prop := length s = 1 /\ nth_error s 0 = Some i.
