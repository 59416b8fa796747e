(** C54: no operation uses a node that has been released. *)
From Coq Require Import NArith List Arith Lia Bool.
From Verif Require Import Base Leaf Inner InnerSpec Tree TreeSpec MarkerSpec GarbageSpec LinkSpec FateSpec ReleaseSpec ReleasePlay ReleaseExec Inst.
From Verif Require Epoch.
Import ListNotations.

(** C54, the part that holds: if no page routes the key of a running operation
    to a page that has been taken out, then nothing an operation got hold of,
    and nothing FreeEpochDeltaChain visits from it, is released before the
    operation leaves its epoch.  For any number of threads, any threshold, any
    schedule, with calls of UpdateThreadLocal.
    Missing: the condition on routing, which is false in general (backward
    routing: [C54_refuted]; forward routing: PropsLost.v). *)
Theorem C54_safe_partial : forall {P : Params} N th (w : wst), wrun N th routed w ->
  forall t h x, In h (w_held w t) -> under (w_f w) h x -> ~ released w x.
Proof. intros P N th w H t h x. apply held_safe with (n0 := N) (th := th). exact H. Qed.
Print Assumptions C54_safe_partial.

#[local] Existing Instance natP.
Definition ins (a n : nat) : list op := map (fun i => OpIns i 1) (seq a n).
Definition del (a n : nat) : list op := map (fun i => OpDel i 1) (seq a n).
Definition ticked (t : nat) (o : op) : list wcmd := WEp Epoch.ATick :: whole t o.
(** Thread 1 has read page 3 when thread 0 merges it into its left neighbour
    and takes it out; garbage from before is released. *)
Definition overlap : list wcmd :=
  flat_map (ticked 0) (ins 1 240) ++
  [WEp (Epoch.AInvoke 1); WEp (Epoch.AStep 1); WCall 1 (@OpGet natP 70) 60; WWork 1 3] ++
  flat_map (ticked 0) (del 65 33 ++ [@OpPage natP 129; @OpPage natP 1]).
Fixpoint path (F : flog) (g : N) (l : list N) (x : N) : bool :=
  match l with
  | [] => N.eqb g x
  | a :: r => existsb (fun e => N.eqb (fst e) g && N.eqb (snd e) a) (goes F) && path F a r x
  end.
Lemma path_ok F l : forall g0 g x, under F g0 g -> path F g l x = true -> under F g0 x.
Proof.
  induction l as [|a r IH]; intros g0 g x Hu E; cbn [path] in E; [apply N.eqb_eq in E; subst; auto|]. apply andb_true_iff in E as [E1 E2]. apply existsb_exists in E1 as ([a' b'] & Hin & E1). apply andb_true_iff in E1 as [A B].
  apply N.eqb_eq in A, B. cbn [fst snd] in *. subst. apply (IH g0 a); auto. econstructor; eauto.
Qed.
Definition overlap_case (w : wst) : bool :=
  existsb (N.eqb 225) (w_held w 1) && path (w_f w) 286 [285; 284; 283; 282; 281; 280; 279; 225]%N 225 &&
  match nth_error (rev (handed (w_f w))) 31 with Some g => N.eqb g 286 | None => false end &&
  existsb (Nat.eqb 30) (Epoch.freed (w_e w)) &&
  match heap (sm (w_s w)) 318 with Some (NInner (IDel (_, d) _ _ _ _)) => d =? 3 | _ => false end.
Lemma overlap_ok w : overlap_case w = true -> In 225%N (w_held w 1) /\ under (w_f w) 286 225 /\ handed_at (w_f w) 31 286 /\ In 30 (Epoch.freed (w_e w)) /\ cut (sm (w_s w)) 3.
Proof.
  unfold overlap_case. intros E. apply andb_true_iff in E as [E E5]. apply andb_true_iff in E as [E E4]. apply andb_true_iff in E as [E E3]. apply andb_true_iff in E as [E1 E2].
  split; [apply existsb_exists in E1 as (y & Hy & E1); apply N.eqb_eq in E1; subst; auto|]. split; [eapply path_ok; [constructor|exact E2]|]. split; [|split].
  - unfold handed_at. destruct (nth_error (rev (handed (w_f w))) 31); [|discriminate]. apply N.eqb_eq in E3. subst. auto.
  - apply existsb_exists in E4 as (y & Hy & E4). apply Nat.eqb_eq in E4. subst. auto.
  - destruct (heap (sm (w_s w)) 318) as [[|[| |[kk dd]| | | |]]|] eqn:Eh; try discriminate. apply Nat.eqb_eq in E5. subst dd. eexists _, _. split; [exact Eh|]. reflexivity.
Qed.
Definition got (o : option wst) (b : wst -> bool) : bool := match o with Some w => b w | None => false end.
Lemma got_ok o b : got o b = true -> exists w, o = Some w /\ b w = true.
Proof. destruct o as [w|]; [|discriminate]. intros E. exists w. auto. Qed.
Lemma routed0 : routed (@sinit natP). Proof. intros t o p i c j H. discriminate. Qed.
(** Node 225, read by thread 1, was handed over under node 286 and is not
    released though older garbage is. *)
Example C54_example : exists w, wrun 2 3 routed w /\ In 225%N (w_held w 1) /\ under (w_f w) 286 225 /\ handed_at (w_f w) 31 286 /\ In 30 (Epoch.freed (w_e w)) /\ cut (sm (w_s w)) 3.
Proof.
  assert (G : got (wplay 2 3 (routedb 2) overlap winit) overlap_case = true) by (vm_compute; reflexivity). apply got_ok in G as (w & E & C). exists w. split; [|apply overlap_ok; exact C].
  eapply wplay_ok; [apply routedb_ok|apply routed0|apply wr_init|exact E].
Qed.
(** Thread 0 has put a RemoveNode (316) on page 3; thread 1 has loaded that and
    then page 2, and is about to put node 314 into a merge node, when thread 0
    does so, takes page 3 out and rebuilds page 2.  Node 314 was handed over
    under node 317 and is not released. *)
Definition begin (t : nat) (o : op) (k : nat) : list wcmd := [WEp (Epoch.AInvoke t); WEp (Epoch.AStep t); WCall t o 60; WWork t k].
Definition helped : list wcmd :=
  flat_map (ticked 0) (ins 1 240 ++ del 65 32) ++ begin 0 (@OpDel natP 97 1) 7 ++ begin 1 (@OpIns natP 70 1) 5 ++
  [WWork 0 200; WRet 0; WEp (Epoch.ALeave 0); WEp (Epoch.AStep 0)] ++ flat_map (ticked 0) ([@OpPage natP 129; @OpPage natP 1] ++ ins 300 10).
Definition helped_case (w : wst) : bool :=
  existsb (N.eqb 314) (w_held w 1) && existsb (fun e => N.eqb (fst e) 316 && N.eqb (snd e) 314) (pend (w_f w)) && path (w_f w) 317 [314]%N 314 &&
  match nth_error (rev (handed (w_f w))) 37 with Some g => N.eqb g 317 | None => false end && existsb (Nat.eqb 30) (Epoch.freed (w_e w)).
Lemma helped_ok w : helped_case w = true -> In 314%N (w_held w 1) /\ In (316, 314)%N (pend (w_f w)) /\ under (w_f w) 317 314 /\ handed_at (w_f w) 37 317 /\ In 30 (Epoch.freed (w_e w)).
Proof.
  unfold helped_case. intros E. apply andb_true_iff in E as [E E5]. apply andb_true_iff in E as [E E4]. apply andb_true_iff in E as [E E3]. apply andb_true_iff in E as [E1 E2].
  split; [apply existsb_exists in E1 as (y & Hy & E1); apply N.eqb_eq in E1; subst; auto|]. split.
  { apply existsb_exists in E2 as ([a b] & Hy & E2). apply andb_true_iff in E2 as [A B]. apply N.eqb_eq in A, B. cbn [fst snd] in *. subst. auto. }
  split; [eapply path_ok; [constructor|exact E3]|]. split.
  - unfold handed_at. destruct (nth_error (rev (handed (w_f w))) 37); [|discriminate]. apply N.eqb_eq in E4. subst. auto.
  - apply existsb_exists in E5 as (y & Hy & E5). apply Nat.eqb_eq in E5. subst. auto.
Qed.
Example C54_example_remove : exists w, wrun 2 3 routed w /\ In 314%N (w_held w 1) /\ In (316, 314)%N (pend (w_f w)) /\ under (w_f w) 317 314 /\ handed_at (w_f w) 37 317 /\ In 30 (Epoch.freed (w_e w)).
Proof.
  assert (G : got (wplay 2 3 (routedb 2) helped winit) helped_case = true) by (vm_compute; reflexivity). apply got_ok in G as (w & E & C). exists w. split; [|apply helped_ok; exact C].
  eapply wplay_ok; [apply routedb_ok|apply routed0|apply wr_init|exact E].
Qed.

(** C54 is false: backward iteration from 129 goes to page 3, which has been
    merged, taken out and released. *)
Definition merged2 : list op := ins 1 240 ++ del 65 33 ++ [@OpPage natP 129; @OpPage natP 1].
Definition back : list wcmd :=
  flat_map (whole 0) merged2 ++ [WRenew] ++ [WEp (Epoch.AInvoke 0); WEp (Epoch.AStep 0); WCall 0 (@OpPageBI natP 129) 60; WWork 0 200].
Theorem C54_refuted : exists (w : wst) h, wrun 1 1024 (fun _ => True) w /\ In h (w_held w 0) /\ released w h.
Proof.
  assert (G : got (wplay 1 1024 (fun _ => true) back winit) (fun w => existsb (fun h => N.eqb h 316 && releasedb w h) (w_held w 0)) = true) by (vm_compute; reflexivity).
  apply got_ok in G as (w & E & C). apply existsb_exists in C as (h & Hh & C). apply andb_true_iff in C as [_ C]. exists w, h. split; [|split; [exact Hh|apply releasedb_ok; exact C]].
  eapply wplay_ok; [| |apply wr_init|exact E]; auto.
Qed.
Print Assumptions C54_refuted.
