(** C20, C21, C22: epoch based reclamation. *)
From Coq Require Import List Arith Lia Bool.
From Verif Require Import Epoch EpochProofs.
Import ListNotations.

(** C20.  Page [x] is unlinked in state [s1] (after any history [acts1], with
    threads unregistering and coming back) while an operation of thread [u] is
    running; in any later state in which this same operation still runs, [x] has
    not been released.  If the thread has unregistered before, the operation must
    have got through JoinEpoch; before that it has not read anything. *)
Theorem C20_safe :
  forall N th acts1 acts2 t x u s1 s1' s2,
  s1 = run N th init acts1 -> step N th (AUnlink t x) s1 = Some s1' ->
  s2 = run N th s1' acts2 ->
  running (pcs s1 u) = true -> (forall e, pcs s1 u = JoinRead e -> lae (slots s1 u) <> None) ->
  running (pcs s2 u) = true -> opno s2 u = opno s1 u ->
  ~ In x (freed s2).
Proof.
  intros N th acts1 acts2 t x u s1 s1' s2 E1 E2 E3 H1 H2. eapply epoch_safe; eauto. unfold known.
  destruct (pcs s1 u); [discriminate| |auto..]. specialize (H2 _ eq_refl). destruct (lae (slots s1 u)); [auto|congruence].
Qed.
Print Assumptions C20_safe.
(** The claim word for word, for an operation of a thread that has not
    unregistered. *)
Theorem C20_registered :
  forall N th acts1 acts2 t x u s1 s1' s2,
  s1 = run N th init acts1 -> step N th (AUnlink t x) s1 = Some s1' ->
  s2 = run N th s1' acts2 -> ~ In (AUnregister u) acts1 ->
  running (pcs s1 u) = true -> running (pcs s2 u) = true -> opno s2 u = opno s1 u ->
  ~ In x (freed s2).
Proof. intros N th acts1 acts2 t x u s1 s1' s2 E1 E2 E3 Hn H1. eapply C20_safe; eauto. intros e _. subst s1. apply registered. exact Hn. Qed.
Print Assumptions C20_registered.

(** No access to a released garbage record, no assertion failure. *)
Theorem C20_no_bad_access : forall N th acts, bad (run N th init acts) = false.
Proof. exact epoch_no_bad. Qed.
Print Assumptions C20_no_bad_access.

(** Thread 1 is inside an operation when thread 0 unlinks page 7; thread 0
    collects (threshold 0) but 7 is released only after thread 1 has left and
    rejoined. *)
Definition ex1 : list act :=
  [ATick; AInvoke 0; AStep 0; AInvoke 1; AStep 1].
Definition collect0 : list act :=
  repeat (AStep 0) 6.
Definition ex2 : list act := collect0 ++ [ATick; AUnlink 0 8] ++ collect0.
Definition ex3 : list act :=
  [ALeave 1; AStep 1; ALeave 0; AStep 0; ATick; AInvoke 0; AStep 0; AInvoke 1; AStep 1;
   AUnlink 0 9] ++ repeat (AStep 0) 8.
Example C20_example :
  let s1 := run 2 0 init ex1 in
  match step 2 0 (AUnlink 0 7) s1 with
  | Some s1' => let s2 := run 2 0 s1' ex2 in
      running (pcs s1 1) = true /\ running (pcs s2 1) = true /\ opno s2 1 = opno s1 1 /\ freed s2 = [] /\
      map fst (garbage s2 0) = [7; 8] /\ freed (run 2 0 s2 ex3) = [8; 7]
  | None => False
  end.
Proof. vm_compute. repeat split; reflexivity. Qed.
(** Thread 1 unregisters, comes back and gets through JoinEpoch before thread 0
    unlinks page 7: the page is kept.  If thread 1 has only read the epoch by
    then, it is released. *)
Definition back1 : list act := [ATick; AInvoke 0; AStep 0; AInvoke 1; AStep 1; ALeave 1; AStep 1; AUnregister 1; AInvoke 1; AStep 1].
Definition later0 : list act := collect0 ++ [ALeave 0; AStep 0; ATick; ATick; AInvoke 0; AStep 0; AUnlink 0 8] ++ collect0.
Example C20_unregistered_example :
  let s1 := run 2 0 init back1 in
  match step 2 0 (AUnlink 0 7) s1 with
  | Some s1' => let s2 := run 2 0 s1' later0 in
      running (pcs s1 1) = true /\ lae (slots s1 1) = Some 1 /\ running (pcs s2 1) = true /\ opno s2 1 = opno s1 1 /\ freed s2 = []
  | None => False
  end.
Proof. vm_compute. repeat split; reflexivity. Qed.
Example C20_unregistered_join :
  let s1 := run 2 0 init (removelast back1) in
  match step 2 0 (AUnlink 0 7) s1 with
  | Some s1' => pcs s1 1 = JoinRead 1 /\ lae (slots s1 1) = None /\ freed (run 2 0 s1' later0) = [7]
  | None => False
  end.
Proof. vm_compute. repeat split; reflexivity. Qed.

(** C21.  A collection by thread [o] with bound [m] releases exactly the garbage
    of [o] whose deletion epoch is below [m], oldest first, and keeps the rest. *)
Theorem C21_collection_exact :
  forall N th acts o m,
  let s := run N th init acts in
  pcs s o = GCFree m ->
  let s' := gc_loop (S (cnt (slots s o))) s o m in
  freed s' = rev (map fst (filter (fun g => elt (snd g) m) (garbage s o))) ++ freed s /\
  garbage s' o = filter (fun g => negb (elt (snd g) m)) (garbage s o) /\ bad s' = false.
Proof. exact collect_exact. Qed.
Print Assumptions C21_collection_exact.

(** Nothing is released twice, nothing is released that was not unlinked, and an
    unlinked page is always released, queued, or about to be queued. *)
Theorem C21_accounting :
  forall N th acts,
  let s := run N th init acts in
  NoDup (freed s) /\
  (forall x, In x (freed s) -> In x (map fst (unl s))) /\
  (forall x, In x (map fst (unl s)) ->
     In x (freed s) \/ (exists t, pcs s t = Unlinking x) \/ (exists o, In x (map fst (garbage s o)))) /\
  (forall x o, In x (map fst (garbage s o)) -> ~ In x (freed s)).
Proof. exact accounting. Qed.
Print Assumptions C21_accounting.

(** At shutdown (all threads idle) everything unlinked has been released once. *)
Theorem C21_shutdown :
  forall N th acts,
  let s := run N th init acts in
  (forall t, pcs s t = Idle) ->
  let s' := shutdown N s in
  bad s' = false /\ NoDup (freed s') /\ (forall x, In x (freed s') <-> In x (map fst (unl s))).
Proof. exact shutdown_all. Qed.
Print Assumptions C21_shutdown.
Definition ex_all : list act :=
  ex1 ++ [AUnlink 0 7] ++ ex2 ++ [AUnlink 1 5; AStep 1; AStep 1; AStep 1; AStep 1; AStep 1; ALeave 1; AStep 1; ALeave 0; AStep 0].
Example C21_example :
  let s := run 2 0 init ex_all in
  (forall t, pcs s t = Idle) /\ freed s = [] /\ freed (shutdown 2 s) = [5; 8; 7].
Proof. vm_compute. split; [intros [|[|t]]; reflexivity|split; reflexivity]. Qed.
Example C21_example_collect :
  let s := run 2 0 init (ex1 ++ [AUnlink 0 7] ++ ex2 ++
     [ALeave 1; AStep 1; ALeave 0; AStep 0; ATick; AInvoke 0; AStep 0; AInvoke 1; AStep 1;
      ATick; AUnlink 0 9] ++ repeat (AStep 0) 4) in
  pcs s 0 = GCFree (Some 3) /\ garbage s 0 = [(7, 1); (8, 2); (9, 4)].
Proof. vm_compute. split; reflexivity. Qed.

(** C22 as stated is false: if one registered thread never runs an operation
    (and does not unregister), nothing is ever released, whatever the other
    threads do. *)
Theorem C22_refuted :
  forall N th u acts, u < N ->
  (forall a, In a acts -> acts_by a <> Some u) ->
  freed (run N th init acts) = [].
Proof. exact idle_blocks. Qed.
Print Assumptions C22_refuted.
(** Concretely: two registered threads, thread 1 idle; every operation that was
    running when 7 was unlinked has returned, the epoch advanced three times,
    the owner collected, and 7 is still there. *)
Definition ex_idle : list act :=
  [ATick; AInvoke 0; AStep 0; AUnlink 0 7] ++ collect0 ++ [ALeave 0; AStep 0; ATick; ATick; ATick;
   AInvoke 0; AStep 0; AUnlink 0 8] ++ collect0 ++ [ALeave 0; AStep 0].
Example C22_refuted_example :
  (forall a, In a ex_idle -> acts_by a <> Some 1) /\
  garbage (run 2 0 init ex_idle) 0 = [(7, 1); (8, 4)] /\ opno (run 2 0 init ex_idle) 0 = 2.
Proof.
  split; [|vm_compute; split; reflexivity].
  intros a H. repeat (destruct H as [<-|H]; [simpl; congruence|]). destruct H.
Qed.

(** The part that holds: if every thread has unregistered, or has started or
    finished an operation after the epoch passed [e], a collection by the owner
    releases everything deleted at epoch [e] or before. *)
Theorem C22_progress_partial :
  forall N th acts o e x d,
  let s := run N th init acts in
  pcs s o = GCSum 0 None ->
  (forall u l, u < N -> lae (slots s u) = Some l -> e < l) ->
  In (x, d) (garbage s o) -> d <= e ->
  In x (freed (run N th s (repeat (AStep o) (S N + S (cnt (slots s o)))))).
Proof. exact collect_progress. Qed.
Print Assumptions C22_progress_partial.
Example C22_partial_example :
  let s := run 2 0 init (ex1 ++ [AUnlink 0 7] ++ ex2 ++
     [ALeave 1; AStep 1; ALeave 0; AStep 0; ATick; AInvoke 0; AStep 0; AInvoke 1; AStep 1; AUnlink 0 9; AStep 0]) in
  pcs s 0 = GCSum 0 None /\ lae (slots s 0) = Some 3 /\ lae (slots s 1) = Some 3 /\
  garbage s 0 = [(7, 1); (8, 2); (9, 3)].
Proof. vm_compute. repeat split; reflexivity. Qed.
(** The run of [C22_refuted_example], but thread 1 unregisters. *)
Example C22_partial_unregistered :
  let s := run 2 0 init (AUnregister 1 :: [ATick; AInvoke 0; AStep 0; AUnlink 0 7] ++ collect0 ++ [ALeave 0; AStep 0; ATick; ATick; ATick;
     AInvoke 0; AStep 0; AUnlink 0 8; AStep 0]) in
  pcs s 0 = GCSum 0 None /\ lae (slots s 0) = Some 4 /\ lae (slots s 1) = None /\ garbage s 0 = [(7, 1); (8, 4)] /\
  freed (run 2 0 s (repeat (AStep 0) (3 + S (cnt (slots s 0))))) = [7].
Proof. vm_compute. repeat split; reflexivity. Qed.
