(** Releasing memory: shutdown (C36) and replaced chains (C38). *)
From Coq Require Import List Arith Bool.
From Verif Require Import Base Inst Leaf LeafSpec Inner InnerSpec Tree TreeSpec TreeRun SeqOps SeqRun SeqPlay Free FreeSpec FreeProofs PropsSeq.
Import ListNotations.

(** C36.  After any calls of Insert, Delete, ConditionalInsert, GetValue and
    forward page fetches of a single thread, destroying the index terminates without failing an
    assertion (any large enough recursion bound gives an outcome, and no
    failure), empties the mapping table, destroys every page and pending
    update that has not been removed exactly once and nothing else, releases
    every block of memory they are in exactly once and no other, and touches
    no node after its block.  Partial: quiescent states left behind by several
    threads, and histories with backward scans, are not covered; GetValue and
    ConditionalInsert calls are restricted as in C02. *)
Theorem C36_shutdown_partial : forall {P : Params} l m,
  calmrun l m ->
  exists fuel0, forall fuel, fuel0 <= fuel ->
  exists t evs, destroy fuel m = Ok (t, evs) /\ (forall i, t i = None) /\
    destroyed_once (live_pages m) evs /\ released_once (live_pages m) evs /\
    no_use_after_free (live_pages m) evs.
Proof.
  intros P l m Hq. destruct (calmrun_ready _ _ Hq) as (lev & H & R). exists (S (nid m)). intros fuel Hf.
  exact (destroy_spec m lev H fuel R Hf).
Qed.
Print Assumptions C36_shutdown_partial.

(** C38.  Reclaiming a replaced chain without a merge: every node of it
    destroyed once, its memory released once, nothing touched afterwards. *)
Theorem C38_reclaim_partial : forall {P : Params} i n,
  no_merge_in n ->
  destroyed_once (only i n) (fst (gc i n)) /\ released_once (only i n) (fst (gc i n)) /\
  no_use_after_free (only i n) (fst (gc i n)).
Proof. intros P. exact gc_spec. Qed.
Print Assumptions C38_reclaim_partial.

(** C38 is false of every chain with a merge on top: the merge node is in the
    memory of the right branch, which is released before the merge node is
    destroyed. *)
Theorem C38_merge_unsafe : forall {P : Params} i n,
  merge_top n -> ~ no_use_after_free (only i n) (fst (gc i n)).
Proof. intros P. exact gc_merge. Qed.
Print Assumptions C38_merge_unsafe.

#[local] Existing Instance natP.
(** Such chains are replaced in executions of a single thread: 130 inserts and
    45 deletes. *)
Definition reclaim_sched : list cmd :=
  flat_map (fun i => whole 0 (OpIns i 1)) (seq 1 130) ++ flat_map (fun i => whole 0 (OpDel i 1)) (seq 70 45).
Definition swapped (l : list sys) : bool :=
  match nth_error l 39, nth_error l 38 with
  | Some s, Some s' =>
      match node_of (sm s) 2, node_of (sm s') 2 with
      | Some (NLeaf (LMerge _ _ _ _)), Some (NLeaf (LBase _ _ _)) => true
      | _, _ => false
      end
  | _, _ => false
  end.
Lemma swapped_replaced tr ss s : exec tr ss s -> swapped ss = true -> exists i n, replaced i n /\ merge_top n.
Proof.
  intros Hx E. unfold swapped in E.
  destruct (nth_error ss 39) as [s1|] eqn:E1; [|discriminate]. destruct (nth_error ss 38) as [s2|] eqn:E2; [|discriminate].
  destruct (exec_pair _ _ _ Hx 38 s1 s2 E1 E2) as (tr' & ss' & e & H1 & H2).
  destruct (node_of (sm s1) 2) as [n|] eqn:N1; [|discriminate]. destruct (node_of (sm s2) 2) as [n'|] eqn:N2; [|destruct n as [[]|]; discriminate].
  exists 2, n. destruct n as [[]|]; try discriminate. destruct n' as [[]|]; try discriminate. split; [|exact I].
  exists tr', ss', s1, e, s2. eexists. split; [exact H1|]. split; [exact H2|]. split; [exact N1|]. split; [intros []|]. split; [exact N2|exact I].
Qed.
Theorem C38_refuted : exists i n, replaced i n /\ ~ no_use_after_free (only i n) (fst (gc i n)).
Proof.
  destruct (swapped_replaced _ _ _ (play_exec reclaim_sched)) as (i & n & H1 & H2); [vm_compute; reflexivity|].
  exists i, n. split; [exact H1|apply gc_merge; exact H2].
Qed.
Print Assumptions C38_refuted.

(** Destroying the index after a history with splits and merges: 5 pages in
    use and one removed, of which the parent still has the old separator. *)
Definition shutdown_ops : list op :=
  map (fun i => OpIns i 1) (seq 1 300) ++ map (fun i => OpDel i 1) (seq 70 45) ++ map (fun i => OpIns i 1) (seq 300 77).
Definition shutdown_seen (m : mem) : Prop :=
  filter (fun i => match node_of m i with Some n => is_remove n | None => false end) (seq 0 (nid m)) = [3] /\
  match node_of m 1 with Some (NInner c) => imerge_free c /\ SeqTree.idels c 3 /\ TreeInv.irefs c 3 | _ => False end /\
  match destroy 20 m with
  | Ok (t, l) => map fst (frees l) = [6; 5; 4; 2; 1] /\ length (dtors l) = 23 /\ forallb (fun i => match t i with None => true | Some _ => false end) (seq 0 7) = true
  | Er _ => False
  end.
Example shutdown_runs : exists l m, calmrun l m /\ nid m = 7 /\ shutdown_seen m.
Proof.
  assert (E : match run_calm 60 shutdown_ops [] minit with Some x => nid (snd x) = 7 /\ shutdown_seen (snd x) | None => False end) by (vm_compute; auto 20).
  destruct (run_calm 60 shutdown_ops [] minit) as [[l m]|] eqn:Er; [|destruct E]. exists l, m.
  split; [|exact E]. apply (run_calm_ok 60 shutdown_ops [] minit); [constructor|exact Er].
Qed.

(** A chain reclaimed properly: two updates and a base page, one block. *)
Example reclaim_case :
  let n := NLeaf (LIns 5 1 (1, false) (LDel 3 1 (0, true) (LBase None [(3, 1)] None))) in
  no_merge_in n /\
  fst (gc 2 n) = [ERead 2 []; EDtor 2 []; ERead 2 [false]; EDtor 2 [false]; EDtor 2 [false; false]; EFree 2 [false; false]].
Proof. split; [exact I|reflexivity]. Qed.
(** A merge: the last access is to the merge node, in the block of the right
    branch, released just before. *)
Example merge_case :
  let n := NLeaf (LMerge 5 3 (LBase (Some 5) [(5, 1)] None) (LBase None [(3, 1)] (Some (5, 3)))) in
  merge_top n /\ homes (nshape n) [] = [([], [true]); ([false], [false]); ([true], [true])] /\
  fst (gc 2 n) = [ERead 2 []; EDtor 2 [false]; EFree 2 [false]; ERead 2 []; EDtor 2 [true]; EFree 2 [true]; EDtor 2 []].
Proof. split; [exact I|split; reflexivity]. Qed.
