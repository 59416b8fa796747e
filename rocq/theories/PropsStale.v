(** A call that works with a root id that is out of date (C40). *)
From Coq Require Import List Arith Lia Bool NArith.
From Verif Require Import Base Leaf LeafSpec Inner Tree TreeSpec TreeFast SteadySpec Steady.
Import ListNotations.

#[local] Existing Instance binP.
Definition fins (a n : nat) : list fcmd := flat_map (fun i => fwhole false (OpIns (N.of_nat i) 1%N)) (seq a n).
Definition fdel (a n : nat) : list fcmd := flat_map (fun i => fwhole false (OpDel (N.of_nat i) 1%N)) (seq a n).
(** Thread 1 begins an Insert and has read the root id when thread 0 inserts
    8400 keys, so that the root page is split below a new root; thread 0 then
    deletes keys of the right half until the right one of the two pages is
    merged into the left one, the former root, and is suspended before it
    updates the parent. *)
Definition stale_root : list fcmd :=
  [FCall true (OpIns 9000%N 1%N) 40; FStep true 1] ++ fins 1 (84 * 100) ++ fdel (42 * 100) 2426 ++
  [FCall false (OpDel (N.of_nat (42 * 100 + 2426)) 1%N) 40; FStep false 14; FStep true 400].
Definition uninit_insert (s : fsys) : bool :=
  match g_run s true with Some (OpIns _ _, Err EUninit) => true | _ => false end.
Lemma uninit_insert_ok s : freaches s -> uninit_insert s = true ->
  exists tr ss s' t k v, exec tr ss s' /\ running s' t = Some (OpIns k v, Err EUninit).
Proof.
  intros (tr & ss & s' & Hx & _ & Hg & _) H. unfold uninit_insert in H. rewrite Hg in H.
  destruct (running s' (tid true)) as [[[k v| | | | | |] [r|[]| | | | | |]]|] eqn:E; try discriminate.
  exists tr, ss, s', (tid true), k, v. auto.
Qed.
(** C40 is false: an Insert reads the parent snapshot, which it never wrote. *)
Theorem C40_refuted : exists tr ss (s : sys) t k v,
  exec tr ss s /\ running s t = Some (OpIns k v, Err EUninit).
Proof. apply (uninit_insert_ok (fplay stale_root)); [apply fplay_ok|]. vm_compute. reflexivity. Qed.
Print Assumptions C40_refuted.

(** What holds of C40: a call other than GetValue that is not overlapped by a
    replacement of the root page never reads a parent snapshot it has not
    written, whatever else happens.  (Missing: calls during which the root page
    is replaced, for which C40 is false.) *)
Theorem C40_root_moved_partial : forall (P : Params) tr ss (s : sys) t o,
  exec tr ss s -> running s t = Some (o, Err EUninit) -> (exists k, o = OpGet k) \/ root_moved t ss s.
Proof. exact @uninit_moved. Qed.
Print Assumptions C40_root_moved_partial.
(** The execution above: the root page was replaced during the failing Insert. *)
Example C40_root_moved_example : exists tr ss (s : sys) t o,
  exec tr ss s /\ running s t = Some (o, Err EUninit) /\ root_moved t ss s.
Proof.
  destruct C40_refuted as (tr & ss & s & t & k & v & Hx & Hr). exists tr, ss, s, t, (OpIns k v). split; [exact Hx|]. split; [exact Hr|].
  destruct (C40_root_moved_partial binP tr ss s t _ Hx Hr) as [[k' E]|H]; [discriminate|exact H].
Qed.
