(** What iterators should do, in terms of the set of stored pairs. *)
From Coq Require Import List Arith Bool Sorted.
From Verif Require Import Base Leaf LeafSpec Inner Tree TreeSpec Iter.
Import ListNotations.

Section IterSpec.
Context {P : Params}.

(** [outs] are all pairs of [A] with keys not smaller than [k] ([None]: all
    pairs), each once, in ascending key order. *)
Definition from (k : option K) (x : K) : Prop := above k x.
Definition listing (A : pairs) (k : option K) (outs : list (K * V)) : Prop :=
  ascending outs /\ NoDup outs /\ forall x v, In (x, v) outs <-> A x v /\ from k x.
(** The iterator stands on a first pair with key not smaller than [k], or is
    the end iterator and there is none. *)
Definition first_from (A : pairs) (k : option K) (it : iter) : Prop :=
  (is_end it = true /\ forall x v, A x v -> ~ from k x) \/
  (is_end it = false /\ exists x v, deref it = Ok (x, v) /\ A x v /\ from k x /\ forall y w, A y w -> from k y -> klt y x = false).

(** The calls in [log] were made and answered in the execution [tr]. *)
Definition answered (tr : list event) (log : list (op * resp)) : Prop :=
  forall o r, In (o, r) log -> exists t, In (ERet t o r) tr.

(** The iterator's page is what the index stores in its key range. *)
Definition fresh (A : pairs) (it : iter) : Prop := page_of A (i_low it) (i_items it) (i_high it).
(** The pairs before the iterator's position. *)
Definition behind (A : pairs) (it : iter) (x : K) (v : V) : Prop :=
  In (x, v) (firstn (i_pos it - 1) (i_items it)) \/ (A x v /\ ~ above (i_low it) x).
(** [it'] is one step back from [it]: on the last pair before [it], or the
    reverse end if there is none. *)
Definition step_back (A : pairs) (it it' : iter) : Prop :=
  (is_rend it' = true /\ forall x v, ~ behind A it x v) \/
  (exists x v, deref it' = Ok (x, v) /\ behind A it x v /\
     (forall y w, behind A it y w -> klt x y = false) /\
     forall y w, behind A it y w <-> behind A it' y w \/ (y, w) = (x, v)).
(** A position between Begin() and End() of the page. *)
Definition in_page (it : iter) : Prop := 1 <= i_pos it <= S (length (i_items it)).
Definition descending {B} (l : list (K * B)) : Prop := StronglySorted (fun a b => klt (fst a) (fst b) = false) l.

(** The iterators a client gets hold of while the execution [tr] goes on. *)
Inductive obtained (tr : list event) : iter -> Prop :=
| O_begin log it : answered tr log -> follows begin_first log it -> obtained tr it
| O_key f k log it : answered tr log -> follows (lower f k) log it -> obtained tr it
| O_next f it log it' : obtained tr it -> answered tr log -> follows (next f it) log it' -> obtained tr it'
| O_prev f it log it' : obtained tr it -> answered tr log -> follows (prev f it) log it' -> obtained tr it'.
(** Places on the line of keys: on a key, or after all keys. *)
Inductive place := At (k : K) | Last.
Definition stands (it : iter) (p : place) : Prop :=
  match p with
  | At k => is_end it = false /\ exists v, deref it = Ok (k, v)
  | Last => is_end it = true
  end.
Definition before (p q : place) : Prop :=
  match p, q with
  | At j, At k => klt j k = true
  | At _, Last => True
  | Last, _ => False
  end.
End IterSpec.
