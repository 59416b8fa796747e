(** C31, C32: ownership of iterator page buffers. *)
From Coq Require Import List Arith Lia Bool.
From Verif Require Import Epoch IterRef IterRefProofs.
Import ListNotations.

(** C31, never early, never twice: no program of iterator operations touches a
    released buffer or releases one twice, and the buffer of every existing
    iterator is live. *)
Theorem C31_never_early : forall l, run init l <> Er EFreed.
Proof. exact iter_safe. Qed.
Print Assumptions C31_never_early.
Theorem C31_held_is_live : forall l s, run init l = Ok s ->
  forall v c, nth_error (vars s) v = Some (VCtx c) ->
  exists x, nth_error (ctxs s) c = Some x /\ live x = true.
Proof. exact iter_held. Qed.
Print Assumptions C31_held_is_live.

(** C31, leaks: refuted for move assignment onto a non-null iterator: all
    iterators are gone and a buffer is still allocated. *)
Theorem C31_leak_refuted :
  exists l s, run init l = Ok s /\ (forall v x, nth_error (vars s) v = Some x -> x = VDead) /\
  exists c x, nth_error (ctxs s) c = Some x /\ live x = true.
Proof.
  exists [ONew; ONew; OMove 0 1; ODestroy 0; ODestroy 1]. eexists. split; [reflexivity|]. split.
  - intros [|[|v]] x H; simpl in H; try congruence. destruct v; discriminate.
  - exists 0. eexists. split; reflexivity.
Qed.
Print Assumptions C31_leak_refuted.

(** Without such a move assignment nothing leaks: a live buffer has an owner. *)
Theorem C31_no_leak_partial : forall l s, run init l = Ok s -> no_leaky init l = true ->
  forall c x, nth_error (ctxs s) c = Some x -> live x = true ->
  exists v, nth_error (vars s) v = Some (VCtx c).
Proof. exact iter_no_leak. Qed.
Print Assumptions C31_no_leak_partial.
Example C31_example :
  let l := [ONew; OCopy 0; ONull; OAssign 2 1; OLoad 0; ODestroy 1; OPostInc 2 true; OMove 1 1; ONull; OMove 4 2] in
  no_leaky init l = true /\
  run init l = Ok {| vars := [VCtx 1; VDead; VNull; VCtx 0; VCtx 2];
                     ctxs := [{| rc := 1; live := true |}; {| rc := 1; live := true |}; {| rc := 1; live := true |}] |}.
Proof. split; reflexivity. Qed.

(** C32 is false: copying, assigning from, or post-incrementing a null iterator
    dereferences a null pointer; for every state and every null iterator. *)
Theorem C32_refuted : forall s v w,
  nth_error (vars s) w = Some VNull ->
  step s (OCopy w) = Er ENull /\ step s (OPostInc w false) = Er ENull /\
  (nth_error (vars s) v = Some VNull -> v <> w -> step s (OAssign v w) = Er ENull).
Proof.
  intros s v w H. unfold step, copy_var. rewrite H. repeat split; auto.
  intros Hv Hn. rewrite Hv. destruct (Nat.eqb_spec v w); congruence.
Qed.
Print Assumptions C32_refuted.
Theorem C32_refuted_reachable : run init [ONull; OCopy 0] = Er ENull /\
  run init [ONew; ONull; OAssign 0 1] = Er ENull /\ run init [ONull; OPostInc 0 false] = Er ENull.
Proof. repeat split; reflexivity. Qed.
Print Assumptions C32_refuted_reachable.
(** What does hold for null iterators: destruction, move assignment from and to
    them, and loading a page. *)
Theorem C32_null_ok_partial : forall s v w a,
  nth_error (vars s) w = Some VNull -> nth_error (vars s) v = Some a -> a <> VDead ->
  (exists s1, step s (ODestroy w) = Ok s1) /\ (exists s2, step s (OMove v w) = Ok s2) /\
  (exists s3, step s (OMove w v) = Ok s3) /\ (exists s4, step s (OLoad w) = Ok s4).
Proof.
  intros s v w a H Hv Ha. unfold step, load_var, get_ctx. rewrite H, Hv.
  repeat split; eauto.
  - destruct (Nat.eqb v w); eauto. destruct a; try congruence; eauto.
  - destruct (Nat.eqb w v); eauto. destruct a; try congruence; eauto.
Qed.
Print Assumptions C32_null_ok_partial.
Example C32_example : exists s, run init [ONull; ONew] = Ok s /\
  nth_error (vars s) 0 = Some VNull /\ nth_error (vars s) 1 = Some (VCtx 0).
Proof. eexists. repeat split; reflexivity. Qed.
