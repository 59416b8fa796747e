(** C23: the lock-free stack. *)
From Coq Require Import List Arith Permutation.
From Verif Require Import Stack StackProofs.
Import ListNotations.

(** Every schedule of one pusher and any number of poppers that offers no more
    items than the array holds: the trace of effects (each emitted at a step of
    the call it belongs to) is a run of a sequential stack, in which a pop
    fails only if the stack is empty or a push is in progress.  Array content
    [g] is arbitrary. *)
Theorem C23_linearizable :
  forall (A : Type) (g : list A) (acts : list (@act A)) s tr,
  offered acts <= length g ->
  run (init g) acts = (s, tr) ->
  overflow s = false /\ exists sp, spec_run ([], false) tr sp.
Proof.
  intros A g acts s tr Ho H. pose proof (stack_no_overflow g acts Ho) as Hv. rewrite H in Hv.
  split; auto. destruct (stack_linearizable g acts s tr H Hv) as (sp & R & _). eauto.
Qed.
Print Assumptions C23_linearizable.

(** No item is lost, invented or returned twice. *)
Theorem C23_conservation :
  forall (A : Type) (g : list A) (acts : list (@act A)) s tr,
  offered acts <= length g ->
  run (init g) acts = (s, tr) -> push s = UIdle ->
  exists left, Permutation (pushed tr) (popped tr ++ left).
Proof.
  intros A g acts s tr Ho H Hp. pose proof (stack_no_overflow g acts Ho) as Hv. rewrite H in Hv.
  destruct (stack_conservation g acts s tr H Hv Hp) as (n & v & _ & P). eauto.
Qed.
Print Assumptions C23_conservation.

(** Two poppers race for the same item while a batch is pushed in between. *)
Definition ex_acts : list (@act nat) :=
  [ABegin 10; APush; APush; ABegin 20; APush; APush; APop 1; APop 2; APop 1; APop 2; APop 1;
   ABuffer 30; ABuffer 40; ABeginCommit; APop 3; APush; APush; APush; APop 2; APop 2; APop 2].
Example C23_example :
  offered ex_acts <= length (repeat 0 4) /\
  snd (run (init (repeat 0 4)) ex_acts) =
    [EPushBegin; EPushEnd [10]; EPushBegin; EPushEnd [20]; EPopOk 1 20; EPushBegin; EPopNone 3;
     EPushEnd [30; 40]; EPopOk 2 40].
Proof. vm_compute. split; [repeat constructor|reflexivity]. Qed.
