(** Model of the key generators of the test programs (test/test_suite.h):
    SimpleInt64Random (247-276), Permutation (844-906) and Zipfian (418-593). *)
From Coq Require Import List Arith NArith.
From Verif Require Import Base.
Import ListNotations.

(** uint64_t. *)
Definition W64 : N := (2 ^ 64)%N.
(** The hash of SimpleInt64Random::operator() (257-272). *)
Definition mix (value salt mul : N) : N :=
  (let v := ((value + salt) mod W64 * mul) mod W64 in N.lxor v (N.shiftr v 33))%N.
Definition hash64 (value salt : N) : N :=
  (mix (mix value salt 0xff51afd7ed558ccd) salt 0xc4ceb9fe1a85ec53)%N.
(** 274: [lower + value % (upper - lower)]; a modulus of zero is undefined. *)
Definition simple_random (lower upper value salt : N) : res N :=
  let m := ((upper + W64 - lower) mod W64)%N in
  if N.eqb m 0 then Er ERange else Ok ((lower + hash64 value salt mod m) mod W64)%N.

(** [data[i] = a] on a vector. *)
Fixpoint put {A} (l : list A) (i : nat) (a : A) : list A :=
  match l, i with
  | [], _ => []
  | _ :: r, 0 => a :: r
  | x :: r, S j => x :: put r j a
  end.
(** [std::swap(data[i], data[j])] (870). *)
Definition swap {A} (l : list A) (i j : nat) : res (list A) :=
  match nth_error l i, nth_error l j with
  | Some a, Some b => Ok (put (put l i b) j a)
  | _, _ => Er ERange
  end.
(** The loop 866-871; [rs]: the numbers drawn. *)
Fixpoint shuffle {A} (l : list A) (i : nat) (rs : list nat) : res (list A) :=
  match rs with
  | [] => Ok l
  | r :: rs' => do l' <- swap l i r; shuffle l' (S i) rs'
  end.
(** Permutation::Generate (854-874).  [rnd i]: the [i]-th number drawn from
    [Random<IntType> rand{0, count - 1}] (863).  uniform_int_distribution asks
    for a non-empty range, also if no number is drawn.  Simplification: the
    numbers do not overflow IntType. *)
Definition generate (count start : nat) (rnd : nat -> nat) : res (list nat) :=
  if count =? 0 then Er EAssert else shuffle (seq start count) 0 (map rnd (seq 0 count)).

(** Zipfian with theta = -1 (counting up) and theta = 0 (uniform).  Not
    modelled: 0 < theta < 1, which computes with approximated powers. *)
Inductive theta := Up | Uniform | Single.   (* -1., 0., >= 40. *)
Record zipf := { z_n : N; z_theta : theta; z_state : N }.
(** The constructor (502-535). *)
Definition zinit (n : N) (th : theta) (seed : N) : res zipf :=
  if N.eqb n 0 then Er EAssert
  else if N.leb (2 ^ 48)%N seed then Er EAssert
  else Ok {| z_n := n; z_theta := th; z_state := match th with Up => (seed mod n)%N | _ => seed end |}.
(** ChangeN (542-546). *)
Definition change_n (z : zipf) (n : N) : zipf := {| z_n := n; z_theta := z_theta z; z_state := z_state z |}.
(** FastRandD (488-491): the next state.  The number returned is
    [state / (2^48 - 1)]. *)
Definition rand48 (s : N) : N := (((s * 0x5deece66d + 0xb) mod W64) mod 2 ^ 48)%N.
(** Get (551-593).  Simplification: the quotient and the product (567-568) are
    exact here and rounded to doubles in the code; see PropsKeyGen. *)
Definition zget (z : zipf) : N * zipf :=
  match z_theta z with
  | Up => let s := N.succ (z_state z) in
          (z_state z, {| z_n := z_n z; z_theta := Up; z_state := if N.leb (z_n z) s then 0%N else s |})
  | Uniform => let s := rand48 (z_state z) in
          ((z_n z * s / (2 ^ 48 - 1))%N, {| z_n := z_n z; z_theta := Uniform; z_state := s |})
  | Single => (0%N, z)
  end.
Fixpoint zgets (k : nat) (z : zipf) : list N * zipf :=
  match k with
  | 0 => ([], z)
  | S k' => let '(v, z') := zget z in let '(l, z'') := zgets k' z' in (v :: l, z'')
  end.
