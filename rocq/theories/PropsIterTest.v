(** Theorems C60 and C61: the iterator test (test/main.cpp 245-260 and
    test/iterator_test.cpp). *)
From Coq Require Import List Arith ZArith NArith Lia Bool.
From Verif Require Import Base Leaf Inner Tree TreeSpec Iter IterTest IterTestProofs.
Import ListNotations.

(** C60.  On a fresh index, for every number of keys from one on and all hash
    functions: the program that inserts 0 .. key_num - 1 and runs
    ForwardIteratorTest returns, and no assertion of the test fails ([true]).
    [n] bounds the rounds of its loop, [f] and [f2] the steps of every call;
    the result is the same for all of them from some number on. *)
Theorem C60_forward : forall vh ph key_num, 1 <= key_num -> exists n0 f0 m',
  forall n f f2, n0 <= n -> f0 <= f -> f0 <= f2 -> irun minit f2 (forward_program vh ph n f key_num) = (m', Ok true).
Proof.
  intros vh ph key_num H. destruct (forward_program_ok vh ph key_num H) as (N & f0 & l & m & Hr & _). exists N, f0, m. exact Hr.
Qed.
Print Assumptions C60_forward.

(** C60, what the test leaves behind: it stores the pairs (i, i), 0 <= i <
    key_num, before and after the iteration. *)
Theorem C60_contents : forall vh ph key_num, 1 <= key_num -> exists n0 f0,
  forall n f f2, n0 <= n -> f0 <= f -> f0 <= f2 ->
  forall k v : Z, @contents (longParams vh ph) (fst (irun minit f2 (forward_program vh ph n f key_num))) k v <-> k = v /\ (0 <= k < Z.of_nat key_num)%Z.
Proof.
  intros vh ph key_num H. destruct (forward_program_ok vh ph key_num H) as (N & f0 & l & m & Hr & _ & Ht). exists N, f0. intros n f f2 H1 H2 H3. rewrite Hr by assumption. exact Ht.
Qed.
Print Assumptions C60_contents.

(** C61, if it returns: with two keys or more, the whole program, forward and
    backward, does not fail any assertion of the tests.  Missing: that moving
    back returns (see C18). *)
Theorem C61_backward_partial : forall vh ph key_num, 2 <= key_num -> exists n0 f0,
  forall n f f2 m' b, n0 <= n -> f0 <= f -> f0 <= f2 -> irun minit f2 (iterator_program vh ph n f key_num) = (m', Ok b) -> b = true.
Proof. exact iterator_program_ok. Qed.
Print Assumptions C61_backward_partial.

Definition no_hash (_ : Z) : N := 0%N.
Definition no_hash2 (_ : Z * Z) : N := 0%N.
(** With one key BackwardIteratorTest fails its own assertion
    [it.IsBegin() == false] (iterator_test.cpp 57). *)
Theorem C61_one_key_refuted : exists vh ph key_num n f f2, snd (irun minit f2 (iterator_program vh ph n f key_num)) = Ok false.
Proof. exists no_hash, no_hash2, 1, 5, 20, 20. vm_compute. reflexivity. Qed.
Print Assumptions C61_one_key_refuted.

Example C60_example : snd (irun minit 20 (forward_program no_hash no_hash2 6 20 3)) = Ok true.
Proof. vm_compute. reflexivity. Qed.
Example C61_example : snd (irun minit 20 (iterator_program no_hash no_hash2 6 20 3)) = Ok true.
Proof. vm_compute. reflexivity. Qed.
(** Two leaf pages, so that both tests cross a page boundary. *)
Example C61_pages_example : snd (irun minit 30 (iterator_program no_hash no_hash2 140 30 135)) = Ok true.
Proof. vm_compute. reflexivity. Qed.
