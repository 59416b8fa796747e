(** Model of src/bloom_filter.h (class BloomFilter). *)
From Coq Require Import List Arith Lia Bool NArith.
Import ListNotations.

Section Bloom.
Context {A : Type} (eqb : A -> A -> bool) (hash : A -> N).

(** bloom_filter.h 59-66: [bit_array_0] (32 bytes) and the array of pointers
    to the inserted values [data_p] with [value_count] entries.  The stored
    pointers are modelled by the values they point to. *)
Record bloom := { bits : list N; data : list A }.

(** bloom_filter.h 88-100 (constructor, memset to zero). *)
Definition empty : bloom := {| bits := repeat 0%N 32; data := [] |}.

(** bloom_filter.h 46, 50, 144-146: byte and bit position of a hash value. *)
Definition byte_of (h : N) : nat := N.to_nat (N.shiftr (N.land h 248) 3).
Definition bit_of (h : N) : N := N.land h 7.

Fixpoint update (l : list N) (i : nat) (f : N -> N) : list N :=
  match l, i with
  | nil, _ => nil
  | x :: r, 0 => f x :: r
  | x :: r, S j => x :: update r j f
  end.

(** bloom_filter.h 132-149 (__InsertScalar).  [unsigned char |= 1 << b] with
    b < 8 does not lose bits, so no truncation is modelled. *)
Definition insert (v : A) (b : bloom) : bloom :=
  let h := hash v in
  {| bits := update (bits b) (byte_of h) (fun x => N.lor x (N.shiftl 1 (bit_of h)));
     data := data b ++ [v] |}.

(** bloom_filter.h 167-189 (__ExistsScalar). *)
Definition exists_ (v : A) (b : bloom) : bool :=
  let h := hash v in
  if N.eqb (N.land (nth (byte_of h) (bits b) 0%N) (N.shiftl 1 (bit_of h))) 0
  then false
  else existsb (fun x => eqb v x) (data b).
End Bloom.
