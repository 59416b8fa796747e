(** Model of class ForwardIterator (bwtree.h 8747-9382): positions, advancing
    and stepping back.  The index is used through the page fetches of
    [TreeSpec.code] only, so an iterator is a client of the index: between two
    fetches other threads may do anything.  The life time of the page buffers
    is in [IterRef], epochs are in [Epoch]; null iterators are in [IterRef]. *)
From Coq Require Import List Arith Bool.
From Verif Require Import Base Leaf Inner Tree TreeSpec.
Import ListNotations.

Section Iter.
Context {P : Params}.

(** An iterator with its IteratorContext (8558-8570, 8747-8751): the buffered
    page and [i_pos] = kv_p - Begin() + 1.  So 0 is REnd(), and one more than
    the number of items is End(). *)
Record iter := { i_low : option K; i_items : list (K * V); i_high : option (K * nat); i_pos : nat }.
Definition at_end (it : iter) : bool := i_pos it =? S (length (i_items it)).
Definition move (it : iter) (p : nat) : iter :=
  {| i_low := i_low it; i_items := i_items it; i_high := i_high it; i_pos := p |}.

(** IsEnd (8921-8933), IsBegin (8943-8953), IsREnd (8964-8974): the next node
    id, or the node id of the low key pair, is INVALID_NODE_ID. *)
Definition is_end (it : iter) : bool := match i_high it with None => at_end it | Some _ => false end.
Definition is_begin (it : iter) : bool := match i_low it with None => i_pos it =? 1 | Some _ => false end.
Definition is_rend (it : iter) : bool := match i_low it with None => i_pos it =? 0 | Some _ => false end.

(** operator* and operator-> (8983-8996). *)
Definition deref (it : iter) : res (K * V) :=
  match i_pos it with
  | 0 => Er ERange
  | S p => match nth_error (i_items it) p with Some x => Ok x | None => Er ERange end
  end.

(** operator< (9019-9037) and operator== (9048-9064). *)
Definition iter_lt (a b : iter) : res bool :=
  if is_end b then Ok (negb (is_end a))
  else if is_end a then Ok false
  else do x <- deref a; do y <- deref b; Ok (klt (fst x) (fst y)).
Definition iter_eq (a b : iter) : res bool :=
  if is_end b then Ok (is_end a)
  else if is_end a then Ok false
  else do x <- deref a; do y <- deref b; Ok (keq (fst x) (fst y)).

(** Client code: local computation and calls of the index. *)
Inductive icode (A : Type) :=
| IRet (a : A)
| IFail (e : err)
| ICall (o : op) (k : resp -> icode A).
Arguments IRet {A}. Arguments IFail {A}. Arguments ICall {A}.
Fixpoint ibind {A B} (c : icode A) (f : A -> icode B) : icode B :=
  match c with
  | IRet a => f a
  | IFail e => IFail e
  | ICall o k => ICall o (fun r => ibind (k r) f)
  end.
Definition ilift {A} (r : res A) : icode A := match r with Ok a => IRet a | Er e => IFail e end.

(** The constructor used by Begin() (8509-8511, 8774-8801). *)
Definition begin_first : icode iter :=
  ICall OpFirst (fun r =>
    match r with
    | RPage low items high => IRet {| i_low := low; i_items := items; i_high := high; i_pos := 1 |}
    | _ => IFail EKind
    end).

(** LowerBound (9173-9249), also the constructor used by Begin(key)
    (8520-8522, 8810-8820); [fuel]
    bounds the rounds of the loop. *)
Fixpoint lower (fuel : nat) (k : K) : icode iter :=
  match fuel with
  | O => IFail EFuel
  | S f =>
      ICall (OpPage k) (fun r =>
        match r with
        | RPage low items high =>
            let p := lower_bound k items in
            let it := {| i_low := low; i_items := items; i_high := high; i_pos := S p |} in
            if negb (at_end it) then IRet it
            else match high with
                 | None => IRet it
                 | Some (h, _) => lower f h
                 end
        | _ => IFail EKind
        end)
  end.

(** MoveAheadByOne (9353-9381). *)
Definition move_ahead (fuel : nat) (it : iter) : icode iter :=
  if is_end it then IFail EAssert
  else if at_end it then IFail ERange                       (* kv_p++ beyond End() *)
  else
    let it' := move it (S (i_pos it)) in
    if at_end it' then
      match i_high it' with
      | None => IRet it'
      | Some (h, _) => lower fuel h
      end
    else IRet it'.
(** operator++ (9095-9103; the postfix version 9126-9138 also copies). *)
Definition next (fuel : nat) (it : iter) : icode iter :=
  if is_end it then IRet it else move_ahead fuel it.

(** The loop of MoveBackByOne (9284-9342). *)
Fixpoint lower_back (fuel : nat) (k : K) : icode iter :=
  match fuel with
  | O => IFail EFuel
  | S f =>
      ICall (OpPageBI k) (fun r =>
        match r with
        | RPage low items high =>
            if match low with None => true | Some l => klt l k end then
              let p := lower_bound k items in
              let it := {| i_low := low; i_items := items; i_high := high; i_pos := p |} in
              if p =? 0 then
                match low with
                | None => IRet it
                | Some l => lower_back f l
                end
              else IRet it
            else IFail EAssert
        | _ => IFail EKind
        end)
  end.
(** MoveBackByOne (9261-9345). *)
Definition move_back (fuel : nat) (it : iter) : icode iter :=
  if is_rend it then IFail EAssert
  else
    match i_pos it with
    | 0 => IFail EAssert
    | S p =>
        let it' := move it p in
        if p =? 0 then
          match i_low it with
          | None => IRet it'
          | Some l => lower_back fuel l
          end
        else IRet it'
    end.
(** operator-- (9108-9119; the postfix version 9143-9155 also copies). *)
Definition prev (fuel : nat) (it : iter) : icode iter :=
  if is_rend it then IRet it else move_back fuel it.

(** * Use of iterators *)
(** Read and advance, up to [n] times, until IsEnd(). *)
Fixpoint walk (n fuel : nat) (it : iter) : icode (list (K * V) * iter) :=
  match n with
  | O => IRet ([], it)
  | S n' =>
      if is_end it then IRet ([], it)
      else ibind (ilift (deref it)) (fun x =>
           ibind (next fuel it) (fun it' =>
           ibind (walk n' fuel it') (fun y => IRet (x :: fst y, snd y))))
  end.
(** The same backwards, until IsREnd(). *)
Fixpoint walk_back (n fuel : nat) (it : iter) : icode (list (K * V) * iter) :=
  match n with
  | O => IRet ([], it)
  | S n' =>
      if is_rend it then IRet ([], it)
      else ibind (ilift (deref it)) (fun x =>
           ibind (prev fuel it) (fun it' =>
           ibind (walk_back n' fuel it') (fun y => IRet (x :: fst y, snd y))))
  end.

(** Run alone: every call is completed before the next local step. *)
Fixpoint irun {A} (m : mem) (fuel : nat) (c : icode A) : mem * res A :=
  match c with
  | IRet a => (m, Ok a)
  | IFail e => (m, Er e)
  | ICall o k =>
      match prun m (code fuel o) with
      | (m', Ok r) => irun m' fuel (k r)
      | (m', Er e) => (m', Er e)
      end
  end.

(** Run together with other threads: the calls made, with the responses
    received, in order. *)
Inductive follows {A} : icode A -> list (op * resp) -> A -> Prop :=
| F_ret a : follows (IRet a) [] a
| F_call o k r l a : follows (k r) l a -> follows (ICall o k) ((o, r) :: l) a.
End Iter.
Arguments IRet {P A}. Arguments IFail {P A}. Arguments ICall {P A}.
