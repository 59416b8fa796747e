(** C28 and C29: the small sorted set and the membership filter. *)
From Coq Require Import List Arith Lia Bool Sorted Permutation NArith.
From Verif Require Import Base SmallSet Bloom SmallProofs.
Import ListNotations.

(** C28.  A strict weak order [lt] with equivalence [eqb].  After inserting the
    elements of [l] in order, the set is strictly ascending and contains exactly
    the first inserted element of every equivalence class. *)
Theorem C28_sorted_set :
  forall (A : Type) (lt eqb : A -> A -> bool),
  (forall x, lt x x = false) ->
  (forall x y z, lt x y = true -> lt y z = true -> lt x z = true) ->
  (forall x y z, lt x z = true -> lt x y = true \/ lt y z = true) ->
  (forall x y, eqb x y = true <-> lt x y = false /\ lt y x = false) ->
  forall l : list A,
  let s := fold_left (fun s v => SmallSet.insert lt eqb v s) l [] in
  StronglySorted (fun x y => lt x y = true) s /\
  (forall x, In x s <-> exists l1 l2, l = l1 ++ x :: l2 /\ forall y, In y l1 -> eqb y x = false).
Proof. exact @insert_all_spec. Qed.
Print Assumptions C28_sorted_set.

(** The variant without de-duplication keeps all elements, ascending, and
    equivalent elements in insertion order. *)
Theorem C28_sorted_multiset :
  forall (A : Type) (lt eqb : A -> A -> bool),
  (forall x, lt x x = false) ->
  (forall x y z, lt x y = true -> lt y z = true -> lt x z = true) ->
  (forall x y z, lt x z = true -> lt x y = true \/ lt y z = true) ->
  (forall x y, eqb x y = true <-> lt x y = false /\ lt y x = false) ->
  forall l : list A,
  let s := fold_left (fun s v => insert_nodedup lt v s) l [] in
  StronglySorted (fun x y => lt y x = false) s /\ Permutation l s /\
  (forall v, filter (eqb v) s = filter (eqb v) l).
Proof. exact @insert_all_nd_spec. Qed.
Print Assumptions C28_sorted_multiset.

(** Removing from the front returns the elements in order. *)
Theorem C28_pop_front : forall (A : Type) (s : list A) x r,
  pop_front s = Some (x, r) <-> s = x :: r.
Proof. intros A s x r. destruct s; simpl; split; intros H; inversion H; auto. Qed.
Print Assumptions C28_pop_front.

(** A concrete order with a non-trivial equivalence: pairs ordered by first component. *)
Definition plt (a b : nat * nat) := Nat.ltb (fst a) (fst b).
Definition peq (a b : nat * nat) := Nat.eqb (fst a) (fst b).
Lemma plt_ok : (forall x, plt x x = false) /\
  (forall x y z, plt x y = true -> plt y z = true -> plt x z = true) /\
  (forall x y z, plt x z = true -> plt x y = true \/ plt y z = true) /\
  (forall x y, peq x y = true <-> plt x y = false /\ plt y x = false).
Proof.
  unfold plt, peq. split; [|split; [|split]]; intros *;
    rewrite ?Nat.ltb_lt, ?Nat.ltb_ge, ?Nat.eqb_eq; lia.
Qed.
Example C28_example :
  fold_left (fun s v => SmallSet.insert plt peq v s) [(5,1); (3,2); (5,3); (4,4); (3,5)] [] =
    [(3,2); (4,4); (5,1)] /\
  fold_left (fun s v => insert_nodedup plt v s) [(5,1); (3,2); (5,3); (4,4); (3,5)] [] =
    [(3,2); (3,5); (4,4); (5,1); (5,3)].
Proof. split; reflexivity. Qed.

(** C29.  The filter reports [v] iff an equal element was inserted. *)
Theorem C29_filter_exact :
  forall (A : Type) (eqb : A -> A -> bool) (hash : A -> N),
  (forall x y, eqb x y = true -> hash x = hash y) ->
  forall (l : list A) (v : A),
  exists_ eqb hash v (fold_left (fun b v => Bloom.insert hash v b) l empty) = true <->
  exists x, In x l /\ eqb v x = true.
Proof. exact @exists_exact. Qed.
Print Assumptions C29_filter_exact.

(** A hash function with collisions (3 and 259 fall on the same bit). *)
Example C29_example :
  let f := fold_left (fun b v => Bloom.insert (fun x => x) v b) [3; 77; 1000]%N empty in
  exists_ N.eqb (fun x => x) 3%N f = true /\ exists_ N.eqb (fun x => x) 259%N f = false /\
  exists_ N.eqb (fun x => x) 1000%N f = true.
Proof. repeat split; reflexivity. Qed.
