(** C26, C27, C33: chunk allocator and per-thread slots. *)
From Coq Require Import List Arith Lia Bool ZArith Permutation.
From Verif Require Import Alloc AllocProofs.
Import ListNotations.
Local Open Scope Z_scope.

(** C26.  In every execution: any two allocations from the same chunk are
    disjoint, and each lies inside the chunk's region [limit, top). *)
Theorem C26_disjoint :
  forall usable meta lim tl acts,
  let s := run usable meta (init lim tl) acts in
  (forall l1 l2 l3 c a1 z1 a2 z2,
     allocs s = l1 ++ (c, a1, z1) :: l2 ++ (c, a2, z2) :: l3 ->
     ~ (a1 < a2 + z2 /\ a2 < a1 + z1)) /\
  (forall c a z, In (c, a, z) (allocs s) ->
     exists ch, nth_error (chunks s) c = Some ch /\ limit ch <= a /\ a + z <= top ch).
Proof.
  intros usable meta lim tl acts s.
  pose proof (run_ainv usable meta acts _ (init_ainv lim tl)) as H. split.
  - exact (allocs_disjoint _ H).
  - intros c a z Hin. destruct H as (_ & _ & H & _). destruct (H _ _ _ Hin) as (_ & ch & E & H1 & _ & H2). eauto.
Qed.
Print Assumptions C26_disjoint.

(** The region of a chunk never changes: [limit] and [top] of every chunk are
    those of its creation, [usable] bytes apart (the header chunk: [lim, tl)). *)
Theorem C26_region :
  forall usable meta lim tl acts c ch,
  nth_error (chunks (run usable meta (init lim tl) acts)) c = Some ch ->
  (c = 0%nat /\ limit ch = lim /\ top ch = tl) \/ (c <> 0%nat /\ top ch = limit ch + usable).
Proof.
  intros usable meta lim tl acts.
  assert (G : forall acts s,
    (forall c ch, nth_error (chunks s) c = Some ch ->
      (c = 0%nat /\ limit ch = lim /\ top ch = tl) \/ (c <> 0%nat /\ top ch = limit ch + usable)) ->
    (0 < length (chunks s))%nat ->
    forall c ch, nth_error (chunks (run usable meta s acts)) c = Some ch ->
      (c = 0%nat /\ limit ch = lim /\ top ch = tl) \/ (c <> 0%nat /\ top ch = limit ch + usable)).
  2:{ intros c ch. apply G; [|simpl; lia]. intros [|[|c0]] ch0 E; inversion E; subst; simpl; auto. }
  clear acts. induction acts as [|a r IH]; intros s Hs Hl c ch; [apply Hs|].
  cbn [run]. destruct (step usable meta a s) as [s'|] eqn:E; [|apply IH; auto].
  assert (Hset : forall i x x', nth_error (chunks s) i = Some x -> limit x' = limit x -> top x' = top x ->
     forall c ch, nth_error (set_nth (chunks s) i x') c = Some ch ->
     (c = 0%nat /\ limit ch = lim /\ top ch = tl) \/ (c <> 0%nat /\ top ch = limit ch + usable)).
  { intros i x x' Ei H1 H2 c0 ch0 E0. destruct (Nat.eq_dec i c0) as [<-|Hn].
    - rewrite nth_set_same in E0 by (apply nth_error_Some; congruence). inversion E0; subst.
      rewrite H1, H2. apply (Hs i); auto.
    - rewrite nth_set_other in E0 by auto. apply (Hs c0); auto. }
  apply IH.
  - destruct a as [t z|t ad]; simpl in E.
    + destruct (pcs s t); try discriminate. destruct (0 <=? z); inversion E; subst; auto.
    + destruct (pcs s t) as [|c0 z|c0 z|c0 z|c0 z n]; try discriminate;
      destruct (nth_error (chunks s) c0) as [x|] eqn:Ex; try discriminate.
      * inversion E; subst; auto.
      * destruct (tail x - z <? limit x); inversion E; subst; cbn [chunks]; eapply Hset; eauto.
      * destruct (next x); inversion E; subst; cbn [chunks with_pc]; auto.
        intros c1 ch1 E1. destruct (Nat.lt_ge_cases c1 (length (chunks s))) as [H|H].
        -- rewrite nth_error_app1 in E1 by auto. apply (Hs c1); auto.
        -- rewrite nth_error_app2 in E1 by auto. destruct (c1 - length (chunks s))%nat as [|k] eqn:Ek.
           ++ inversion E1; subst; simpl. right. split; lia.
           ++ destruct k; discriminate.
      * destruct (next x); inversion E; subst; cbn [chunks]; auto. eapply Hset; eauto.
  - destruct a as [t z|t ad]; simpl in E.
    + destruct (pcs s t); try discriminate. destruct (0 <=? z); inversion E; subst; auto.
    + destruct (pcs s t) as [|c0 z|c0 z|c0 z|c0 z n]; try discriminate;
      destruct (nth_error (chunks s) c0) as [x|] eqn:Ex; try discriminate.
      * inversion E; subst; auto.
      * destruct (tail x - z <? limit x); inversion E; subst; cbn [chunks]; rewrite set_nth_length; auto.
      * destruct (next x); inversion E; subst; cbn [chunks with_pc]; auto. rewrite app_length; lia.
      * destruct (next x); inversion E; subst; cbn [chunks]; auto. rewrite set_nth_length; auto.
Qed.
Print Assumptions C26_region.

(** With [n] threads and requests of at most [M] bytes the moving pointer stays
    within [n * M] of the region, so the unbounded integers of the model agree
    with machine pointers. *)
Theorem C26_no_wrap :
  forall usable meta, 0 <= usable ->
  forall n M lim tl acts, 0 <= M -> lim <= tl ->
  Forall (fun a => match a with AStart t z => (t < n)%nat /\ z <= M | AStep t _ => (t < n)%nat end) acts ->
  forall c ch, nth_error (chunks (run usable meta (init lim tl) acts)) c = Some ch ->
  limit ch - Z.of_nat n * M <= tail ch.
Proof. exact alloc_no_wrap. Qed.
Print Assumptions C26_no_wrap.

(** Two threads race on an almost full header chunk and one grows it. *)
Definition ex_acts : list act :=
  [AStart 1 24; AStart 2 24; AStep 1 0; AStep 2 0; AStep 1 0; AStep 2 0;
   AStart 1 24; AStep 1 0; AStep 1 0; AStep 2 5000; AStep 1 6000; AStep 1 0; AStep 2 0;
   AStep 1 0; AStep 2 0; AStep 1 0; AStep 2 0; AStep 1 0; AStep 2 0; AStep 1 0; AStep 2 0].
Example C26_example :
  let s := run 4000 96 (init 1000 1040) ex_acts in
  allocs s = [(1%nat, 4048, 24); (1%nat, 4072, 24); (0%nat, 1016, 24)] /\ freed s = [2%nat] /\
  (forall t, pcs s t = TIdle).
Proof. vm_compute. split; [reflexivity|split; [reflexivity|]]. intros [|[|[|t]]]; reflexivity. Qed.

(** C27.  A grower continues on the chunk recorded as successor; a recorded
    successor never changes; and when all calls have returned, Destroy() plus
    the releases made by losers free every chunk exactly once. *)
Theorem C27_grow_continues :
  forall usable meta t addr s s' c z m z',
  (pcs s t = TGrow c z \/ exists n, pcs s t = TCas c z n) ->
  step usable meta (AStep t addr) s = Some s' -> pcs s' t = TTry m z' ->
  exists ch, nth_error (chunks s') c = Some ch /\ next ch = Some m.
Proof. exact grow_continues. Qed.
Print Assumptions C27_grow_continues.

Theorem C27_successor_stable :
  forall usable meta lim tl acts1 acts2 c ch m,
  let s := run usable meta (init lim tl) acts1 in
  nth_error (chunks s) c = Some ch -> next ch = Some m ->
  exists ch', nth_error (chunks (run usable meta s acts2)) c = Some ch' /\ next ch' = Some m.
Proof.
  intros usable meta lim tl acts1 acts2 c ch m s. apply run_next_stable.
  apply (run_ainv usable meta acts1 _ (init_ainv lim tl)).
Qed.
Print Assumptions C27_successor_stable.

Theorem C27_released_once :
  forall usable meta lim tl acts,
  let s := run usable meta (init lim tl) acts in
  (forall t, pcs s t = TIdle) ->
  Permutation (freed s ++ destroy (length (chunks s)) (chunks s) 0) (seq 0 (length (chunks s))).
Proof.
  intros usable meta lim tl acts s. destruct (run_ginv usable meta acts _ _ (init_ginv lim tl)) as (P & H & _).
  exact (destroy_all _ _ H).
Qed.
Print Assumptions C27_released_once.
Example C27_example :
  let s := run 4000 96 (init 1000 1040) ex_acts in
  freed s ++ destroy (length (chunks s)) (chunks s) 0 = [2; 0; 1]%nat.
Proof. reflexivity. Qed.

(** C33.  [p] is the address returned by malloc(64 * (n + 1)). *)
Theorem C33_slots :
  forall p n i j, 0 <= i < n -> 0 <= j < n ->
  slot_addr p i mod 64 = 0 /\
  p <= slot_addr p i /\ slot_addr p i + 64 <= p + 64 * (n + 1) /\
  (i < j -> slot_addr p i + 64 <= slot_addr p j).
Proof.
  intros p n i j Hi Hj. destruct (slot_base_spec p) as [H1 H2]. unfold slot_addr.
  split; [|lia]. rewrite Z.mod_add by lia. auto.
Qed.
Print Assumptions C33_slots.
Example C33_example : map (slot_addr 1000) [0; 1; 2] = [1024; 1088; 1152].
Proof. reflexivity. Qed.
