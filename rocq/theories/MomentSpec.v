(** Moments of an execution, and what a scan should return while other
    threads change the index (C53). *)
From Coq Require Import List Arith Bool Sorted.
From Verif Require Import Base Leaf LeafSpec Inner Tree TreeSpec Iter IterSpec.
Import ListNotations.

Section MomentSpec.
Context {P : Params}.

(** The execution goes on from [s0]: further events and all states passed,
    [s0] included, latest first. *)
Inductive later (s0 : sys) : list event -> list sys -> sys -> Prop :=
| L_here : later s0 [] [s0] s0
| L_step tr ss s e s' : later s0 tr ss s -> sstep s e s' -> later s0 (e :: tr) (s' :: ss) s'.

(** In [tr] thread [t] calls [o], and this call returns [r]. *)
Definition call_in (tr : list event) (t : nat) (o : op) (r : resp) : Prop :=
  exists a b c, tr = a ++ ERet t o r :: b ++ ECall t o :: c /\ forall o' r', ~ In (ERet t o' r') b.
(** All calls of [log] begin and end in [tr]. *)
Definition calls_in (tr : list event) (log : list (op * resp)) : Prop :=
  forall o r, In (o, r) log -> exists t, call_in tr t o r.

(** A moment: one state, or two states with one step between them. *)
Definition moment (ss : list sys) (s1 s2 : sys) : Prop :=
  (s1 = s2 /\ In s1 ss) \/ exists a b, ss = a ++ s2 :: s1 :: b.

(** Pairs stored all the time, and pairs stored at some time. *)
Definition always (ss : list sys) (k : K) (v : V) : Prop := forall s, In s ss -> contents (sm s) k v.
Definition sometime (ss : list sys) (k : K) (v : V) : Prop := exists s, In s ss /\ contents (sm s) k v.

(** The iterator has gone past [x], forwards or backwards. *)
Definition passed (it : iter) (x : K) : Prop := is_end it = true \/ exists y w, deref it = Ok (y, w) /\ klt x y = true.
Definition passed_back (it : iter) (x : K) : Prop := is_rend it = true \/ exists y w, deref it = Ok (y, w) /\ klt y x = true.

(** A call of [o] is under way in [s0] or begins during [tr]. *)
Definition called (s0 : sys) (tr : list event) (o : op) : Prop :=
  (exists t p, running s0 t = Some (o, p)) \/ exists t, In (ECall t o) tr.

(** Operations that do not change the set of pairs. *)
Definition reads (o : op) : Prop := match o with OpIns _ _ | OpDel _ _ | OpCond _ _ _ => False | _ => True end.
(** From [s0] on, during [tr], nobody changes the set of pairs. *)
Definition readers_only (s0 : sys) (tr : list event) : Prop :=
  forall o, called s0 tr o -> reads o.
End MomentSpec.
