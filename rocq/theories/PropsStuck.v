(** A call that never returns although no other call is in progress (C42). *)
From Coq Require Import List Arith Lia Bool NArith.
From Verif Require Import Base Leaf LeafSpec Inner Tree TreeSpec TreeFast Inst SeqRun PropsSeq ProgressSpec Progress PropsStale PropsProgress Stuck.
Import ListNotations.

(** C42 for one thread: after any single-threaded history (with the
    restrictions of C02) a call in progress returns, whatever it has done so
    far, if it began with enough retries.  Missing: histories of several
    threads, where the claim is false, see below. *)
Theorem C42_one_thread_partial : forall {P : Params} l s t o,
  calmrun l (sm s) -> plain o -> need l (sm s) o ->
  exists fuel0, forall fuel s', fuel0 <= fuel -> alone t (called s t o fuel) s' -> finishes s' t.
Proof.
  intros P l s t o Hl Hp Hn. destruct (C02_sequential_set_partial l _ o Hl Hp Hn) as (f & m' & r & E & _).
  exists f. intros fuel s' Hf Ha. eapply midway; eauto.
Qed.
Print Assumptions C42_one_thread_partial.

(** Its hypotheses are met by the history [busy] of PropsSeq.v. *)
Example busy_midway : exists x, calmrun (fst x) (snd x) /\ busy_seen x /\
  forall s t, sm s = snd x -> exists fuel0, forall fuel s', fuel0 <= fuel -> alone t (called s t (@OpDel natP 77 2) fuel) s' -> finishes s' t.
Proof.
  destruct busy_runs as (x & Hc & Hq & Hs). exists x. split; [exact Hc|]. split; [exact Hs|].
  intros s t E. rewrite <- E in Hc. apply (C42_one_thread_partial (fst x)); [exact Hc|exact I|exact I].
Qed.

#[local] Existing Instance binP.
Definition fev (a n : nat) : list fcmd := flat_map (fun i => fwhole false (OpIns (N.of_nat (2 * i)) 1%N)) (seq a n).
Definition fod (a n : nat) : list fcmd := flat_map (fun i => fwhole false (OpIns (N.of_nat (2 * i + 1)) 1%N)) (seq a n).
Definition fagain (n : nat) : list fcmd :=
  flat_map (fun i => let o := OpIns (N.of_nat (128 * i + 2)) 1%N in fwhole false o ++ fwhole false o) (seq 0 n).
Definition fdev (a n : nat) : list fcmd := flat_map (fun i => fwhole false (OpDel (N.of_nat (2 * i)) 1%N)) (seq a n).
(** A tree with two inner pages P and Q below the root.  Half of the pairs of
    two neighbouring leaf pages J (low key 4162) and R (low key 4226) of P are
    deleted.  Thread 1, deleting a key of Q, finds Q too small and merges it
    into P, and is suspended before it consolidates P, which now has 131
    children, more than a page may have.  Thread 0, deleting a key of R, removes R
    and then looks for R's left neighbour: for that it consolidates P, without
    splitting it.  The middle child of P is J.  Thread 1 goes on and returns.
    Its next call finds P too large, finds that J is not removed, and is
    suspended before it splits P.  Thread 0 blocks P, removes J and unblocks P,
    which brings P's former pointer back.  Thread 1's CAS thus succeeds and splits P
    at J; the call returns. *)
Definition stuck : list fcmd :=
  fev 1 (84 * 100) ++ fod 1 (64 * 38) ++ fagain 38 ++ fdel (41 * 100 + 62) 32 ++ fdel (42 * 100 + 26) 32 ++ fdev (42 * 100) 2426 ++
  [FCall true (OpDel (N.of_nat (132 * 100 + 52)) 1%N) 40; FStep true 16; FCall false (OpDel 4280%N 1%N) 40; FStep false 16;
   FStep true 3; FRet true; FCall true (OpIns 1%N 1%N) 40; FStep true 5; FStep false 5; FStep true 8; FRet true].

(** C42 is false: only thread 0's call is in progress in the state reached, and
    it neither returns nor writes anything any more.  No other call of that key
    returns either, not even a GetValue, although the key is stored. *)
Theorem C42_refuted : exists tr ss (s : sys) k v p,
  exec tr ss s /\ (forall u, u <> 0 -> running s u = None) /\ running s 0 = Some (OpDel k v, p) /\
  (forall s', alone 0 s s' -> sm s' = sm s) /\ ~ finishes s 0 /\ contents (sm s) k v /\
  forall t, t <> 0 -> ~ returns_alone s t (OpGet k) /\ forall w, ~ returns_alone s t (OpIns k w) /\ ~ returns_alone s t (OpDel k w).
Proof. apply (stuck_ok (fplay stuck) 4280%N 1%N 3 3 200); [apply fplay_ok|]. vm_compute. reflexivity. Qed.
Print Assumptions C42_refuted.
