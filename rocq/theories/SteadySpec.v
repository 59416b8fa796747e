(** Replacement of the root page during a call. *)
From Coq Require Import List Arith.
From Verif Require Import Base Leaf Inner Tree TreeSpec.
Import ListNotations.

Section SteadySpec.
Context {P : Params}.
(** The states passed since the call in which a thread is began ([ss] is latest
    first; between two calls of a thread there is a state in which it is in none). *)
Fixpoint since (t : nat) (ss : list sys) : list sys :=
  match ss with
  | [] => []
  | s :: ss => match running s t with Some _ => s :: since t ss | None => [] end
  end.
(** The index had another root page at some time during the call. *)
Definition root_moved (t : nat) (ss : list sys) (s : sys) : Prop :=
  exists s', In s' (since t ss) /\ root (sm s') <> root (sm s).
End SteadySpec.
