(** Model of src/sorted_small_set.h (class SortedSmallSet). *)
From Coq Require Import List Arith Lia Bool.
From Verif Require Import Base.
Import ListNotations.

Section SmallSet.
Context {A : Type} (lt eqb : A -> A -> bool).

(** sorted_small_set.h 15-26: the container is the memory between [start_p]
    and [end_p]; it is modelled by the list of its elements.  The capacity of
    the backing array is not stored by the class (no bounds check), it is
    treated in the users of the class. *)
Definition sss := list A.

(** sorted_small_set.h 49-79 (Insert): linear scan for the first element that
    is not smaller; if it is equal return, else shift and store. *)
Fixpoint insert (v : A) (s : sss) : sss :=
  match s with
  | nil => [v]
  | x :: r =>
      if lt x v then x :: insert v r
      else if eqb x v then s else v :: s
  end.

(** sorted_small_set.h 88-101 (InsertNoDedup): position by
    [std::upper_bound], then shift and store. *)
Definition insert_nodedup (v : A) (s : sss) : sss :=
  let it := first_not (fun x => negb (lt v x)) s in
  firstn it s ++ v :: skipn it s.

(** sorted_small_set.h 129-133 (PopFront): asserts that the set is not empty
    ([None] is the assertion failure). *)
Definition pop_front (s : sss) : option (A * sss) :=
  match s with nil => None | x :: r => Some (x, r) end.

(** sorted_small_set.h 139-141, 146-148, 122-124, 156-158. *)
Definition get_front (s : sss) : option A := hd_error s.
Definition get_size (s : sss) : nat := length s.
Definition is_empty (s : sss) : bool := match s with nil => true | _ => false end.
Definition invalidate (s : sss) : sss := nil.

(** Operations on a set, for stating properties of whole runs. *)
Inductive sop := OInsert (v : A) | OInsertND (v : A) | OPop.

(** One operation; pops return the removed element. *)
Definition sstep (s : sss) (o : sop) : option (sss * option A) :=
  match o with
  | OInsert v => Some (insert v s, None)
  | OInsertND v => Some (insert_nodedup v s, None)
  | OPop => match pop_front s with
            | Some (x, s') => Some (s', Some x)
            | None => None
            end
  end.
End SmallSet.
