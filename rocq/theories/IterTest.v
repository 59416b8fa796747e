(** Model of the iterator tests of the test program (test/main.cpp 245-260,
    test/iterator_test.cpp): client code of the index.

    Simplifications: printing, PrintStat and DestroyTree (main.cpp 262-267) are
    left out; the loop counters and key_num are integers without bounds; the
    postfix operators ++ and -- are taken for the prefix ones (the copies they
    make are in [IterRef]). *)
From Coq Require Import List Arith ZArith NArith Bool Lia.
From Verif Require Import Base Leaf Inner Tree TreeSpec Iter.
Import ListNotations.

(** TreeType (test_suite.h 44-87): keys and values are long int, compared by
    KeyComparator and KeyEqualityChecker; the hash functions are std::hash,
    here any functions. *)
Program Definition longP (vh : Z -> N) (ph : Z * Z -> N) : Params := {|
  K := Z; klt := Z.ltb; keq := Z.eqb; kdef := 0%Z;
  V := Z; veq := Z.eqb; vhash := vh; phash := ph |}.
Next Obligation. apply Z.ltb_irrefl. Qed.
Next Obligation. rewrite Z.ltb_lt in *. lia. Qed.
Next Obligation. rewrite Z.ltb_ge in *. lia. Qed.
Next Obligation. rewrite Z.eqb_eq. tauto. Qed.
Next Obligation. rewrite Z.eqb_eq. tauto. Qed.

Section IterTest.
Context (vh : Z -> N) (ph : Z * Z -> N).
#[local] Instance longParams : Params := longP vh ph.

(** main.cpp 255-257, from [i] on: [n] rounds. *)
Fixpoint fill (n : nat) (i : Z) : icode unit :=
  match n with
  | O => IRet tt
  | S n' => ICall (@OpIns longParams i i) (fun _ => fill n' (i + 1)%Z)
  end.

(** The pair read, [it->first] and [it->second]: is it ([k], [k])? *)
Definition both (x : K * V) (k : Z) : bool := Z.eqb (fst x) (snd x) && Z.eqb (fst x) k.
(** The loop of ForwardIteratorTest (iterator_test.cpp 21-28); [None]: an
    assertion failed; [n] bounds the rounds. *)
Fixpoint forward_loop (n fuel : nat) (it : iter) (i : Z) : icode (option Z) :=
  match n with
  | O => IFail EFuel
  | S n' =>
      if is_end it then IRet (Some i)
      else ibind (ilift (deref it)) (fun x =>
             if both x i then ibind (next fuel it) (fun it' => forward_loop n' fuel it' (i + 1)%Z)
             else IRet None)
  end.
(** ForwardIteratorTest (iterator_test.cpp 16-46); [false]: an assertion
    failed. *)
Definition forward_test (n fuel : nat) (key_num : Z) : icode bool :=
  ibind begin_first (fun it =>
  ibind (forward_loop n fuel it 0%Z) (fun r =>
    match r with
    | None => IRet false
    | Some i =>
        if negb (Z.eqb i key_num) then IRet false                             (* 30 *)
        else ibind (lower fuel (key_num - 1)%Z) (fun it2 =>
             ibind (next fuel it2) (fun it2' =>
               if negb (is_end it2') then IRet false                          (* 36 *)
               else ibind (ilift (deref it2)) (fun x =>
                      if negb (Z.eqb (fst x) (key_num - 1)) then IRet false   (* 38, it3 *)
                      else ibind (lower fuel (key_num + 1)%Z) (fun it4 =>
                             IRet (is_end it4)))))                            (* 41 *)
    end)).

(** The loop of BackwardIteratorTest (iterator_test.cpp 60-71). *)
Fixpoint backward_loop (n fuel : nat) (it : iter) (key : Z) : icode bool :=
  match n with
  | O => IFail EFuel
  | S n' =>
      ibind (ilift (deref it)) (fun x =>
        if is_begin it then IRet (both x key && Z.eqb key 0)
        else if both x key then ibind (prev fuel it) (fun it' => backward_loop n' fuel it' (key - 1)%Z)
        else IRet false)
  end.
(** BackwardIteratorTest (iterator_test.cpp 51-76). *)
Definition backward_test (n fuel : nat) (key_num : Z) : icode bool :=
  ibind (lower fuel (key_num - 1)%Z) (fun it =>
    if is_end it || is_begin it then IRet false                               (* 56, 57 *)
    else backward_loop n fuel it (key_num - 1)%Z).

(** main.cpp 250-260. *)
Definition forward_program (n fuel : nat) (key_num : nat) : icode bool :=
  ibind (fill key_num 0%Z) (fun _ => forward_test n fuel (Z.of_nat key_num)).
Definition iterator_program (n fuel : nat) (key_num : nat) : icode bool :=
  ibind (forward_program n fuel key_num) (fun b =>
    if b then backward_test n fuel (Z.of_nat key_num) else IRet false).
End IterTest.
