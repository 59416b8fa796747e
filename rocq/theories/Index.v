(** Model of class BWTreeIndex (src/peloton/master/bwtree_index.cpp, and
    src/peloton/mvcc-dev-scale/bwtree_index.cpp where it differs): the index
    that Peloton builds on the tree.  Line numbers are of the former, those of
    the latter are marked mvcc.

    Simplifications: a key tuple is its KeyType, a location (ItemPointer) is
    the value itself, since the index compares what the pointers point to
    (bwtree_index.h 37-45); so the memory of the ItemPointers does not occur.
    DeleteEntry is left out: it calls DeleteExchange, which bwtree.h does not
    have. *)
From Coq Require Import List Arith Bool.
From Verif Require Import Base Leaf Inner Tree TreeSpec Iter.
Import ListNotations.

Section Index.
Context {P : Params}.

(** InsertEntry (50-66). *)
Definition insert_entry (k : K) (v : V) : icode bool :=
  ICall (OpIns k v) (fun r => match r with RBool b => IRet b | _ => IFail EKind end).
(** CondInsertEntry (100-129), with its two assertions (121, 123). *)
Definition cond_insert_entry (k : K) (v : V) (pred : V -> bool) : icode bool :=
  ICall (OpCond k v pred) (fun r =>
    match r with
    | RCond b sat => if Bool.eqb b (negb sat) then IRet b else IFail EAssert
    | _ => IFail EKind
    end).
(** ScanKey (254-269, 386-396). *)
Definition scan_key_entry (k : K) : icode (list V) :=
  ICall (OpGet k) (fun r => match r with RVals l => IRet l | _ => IFail EKind end).

(** The loop of Scan (207-228, 339-360; mvcc 255-268, 345-358): [ok] is
    Compare() of a key with the constraints, [stop] is
    all_constraints_are_equal; [n] bounds the rounds. *)
Fixpoint collect (n fuel : nat) (ok : K -> bool) (stop : bool) (it : iter) : icode (list V) :=
  match n with
  | O => IFail EFuel
  | S n' =>
      if is_end it then IRet []
      else ibind (ilift (deref it)) (fun x =>
             if ok (fst x) then
               ibind (next fuel it) (fun it' => ibind (collect n' fuel ok stop it') (fun l => IRet (snd x :: l)))
             else if stop then IRet []
             else ibind (next fuel it) (collect n' fuel ok stop))
  end.
(** ScanAllKeys (240-251, 372-383): the same loop without a condition. *)
Definition scan_all (n fuel : nat) : icode (list V) := ibind begin_first (collect n fuel (fun _ => true) false).

(** Constraints of a scan, as far as Scan looks at them: [c_lead]: the leading
    column has an equality constraint (140-154); [c_low], [c_eq]: the key and
    the result of ConstructLowerBoundTuple; [c_ok]: Compare().  The latter two
    functions are Peloton's, not in this repository. *)
Record query := { c_lead : bool; c_low : K; c_eq : bool; c_ok : K -> bool }.
(** Scan into a vector of ItemPointers (132-237). *)
Definition scan (n fuel : nat) (q : query) : icode (list V) :=
  if c_lead q then
    if c_eq q then scan_key_entry (c_low q)
    else ibind (lower fuel (c_low q)) (collect n fuel (c_ok q) false)
  else ibind begin_first (collect n fuel (c_ok q) false).
(** Scan into a vector of pointers (272-369): no point query. *)
Definition scan_ptr (n fuel : nat) (q : query) : icode (list V) :=
  if c_lead q then ibind (lower fuel (c_low q)) (collect n fuel (c_ok q) (c_eq q))
  else ibind begin_first (collect n fuel (c_ok q) false).
(** Scan in mvcc-dev-scale (mvcc 208-281, 313-371): [index_key] gets a value
    for point queries only (238, 328); [junk] is what the declaration (mvcc 214,
    319) leaves in it. *)
Definition scan_mvcc (junk : K) (n fuel : nat) (q : query) : icode (list V) :=
  if c_eq q then scan_key_entry (c_low q)
  else ibind (lower fuel junk) (collect n fuel (c_ok q) false).
End Index.
