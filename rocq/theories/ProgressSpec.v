(** Progress: a call that runs alone.  The other threads are suspended,
    wherever they are. *)
From Coq Require Import List Arith.
From Verif Require Import Base Leaf LeafSpec Inner Tree TreeSpec.

Section ProgressSpec.
Context {P : Params}.

(** Only thread [t] takes steps. *)
Inductive alone (t : nat) (s : sys) : sys -> Prop :=
| A_none : alone t s s
| A_more s1 s2 : alone t s s1 -> sstep s1 (EStep t) s2 -> alone t s s2.
(** Thread [t] has just called [o]. *)
Definition called (s : sys) (t : nat) (o : op) (fuel : nat) : sys :=
  {| sm := sm s; running := tset (running s) t (Some (o, code fuel o)) |}.
(** With some bound on the retries, the call of [o] returns. *)
Definition returns_alone (s : sys) (t : nat) (o : op) : Prop :=
  exists fuel s' r, alone t (called s t o fuel) s' /\ running s' t = Some (o, Ret r).
(** The call in progress in thread [t] returns. *)
Definition finishes (s : sys) (t : nat) : Prop :=
  exists s' o r, alone t s s' /\ running s' t = Some (o, Ret r).
End ProgressSpec.
