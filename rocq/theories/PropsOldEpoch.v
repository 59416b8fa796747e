(** C50: the reclamation scheme of USE_OLD_EPOCH.

    A worker is inside an operation from the return of JoinEpoch to the call of
    LeaveEpoch.  [M] is MAX_THREAD_COUNT; the code needs at most that many
    workers. *)
From Coq Require Import List Arith ZArith Lia Bool.
From Verif Require Import OldEpoch OldEpochProofs.
Import ListNotations.

(** Between two points of an execution the operation of [t] does not end. *)
Definition stays (t : nat) (acts : list act) : Prop := ~ In (ALeave t) acts.
(** No operation and no call of PerformGarbageCollection is under way. *)
Definition idle (s : st) : Prop := (forall t, wp s t = Out) /\ gp s = GOut.
(** A call of PerformGarbageCollection that ends after [n] steps. *)
Definition perform (n : nat) : list act := AClean :: repeat AGStep n.
(** The pages unlinked by the actions [acts] from [s]. *)
Fixpoint unlinked (N : nat) (M : Z) (s : st) (acts : list act) : list nat :=
  match acts with
  | [] => []
  | a :: r =>
      match step N M a s with
      | Some s' => match a with AUnlink _ x => x :: unlinked N M s' r | _ => unlinked N M s' r end
      | None => unlinked N M s r
      end
  end.

(** Lemmas on [stays]. *)
Lemma stay_step N M a s s' t : step N M a s = Some s' -> a <> ALeave t -> is_in (wp s t) = true -> is_in (wp s' t) = true /\ opno s' t = opno s t.
Proof.
  intros H Ha Hi. destruct a as [u|u x|u|u| |]; simpl in H.
  - destruct (Nat.ltb u N); [|discriminate]. destruct (wp s u) eqn:E; try discriminate. injection H as <-. cbn.
    destruct (Nat.eq_dec t u) as [->|Hn]; [rewrite E in Hi; discriminate|]. rewrite !upd_other; auto.
  - destruct (wp s u) eqn:E; try discriminate. destruct (existsb _ _); [discriminate|]. injection H as <-. cbn. split; auto.
    destruct (Nat.eq_dec t u) as [->|Hn]; [rewrite upd_same; auto|rewrite upd_other; auto].
  - destruct (wp s u) eqn:E; try discriminate. injection H as <-. cbn. split; auto.
    destruct (Nat.eq_dec t u) as [->|Hn]; [destruct Ha; auto|rewrite upd_other; auto].
  - assert (K : forall p s1, is_in p = true \/ is_in (wp s u) = false -> wp s1 = upd (wp s) u p -> opno s1 = opno s -> is_in (wp s1 t) = true /\ opno s1 t = opno s t).
    { intros p s1 Hp Hw ->. split; auto. rewrite Hw. destruct (Nat.eq_dec t u) as [->|Hn]; [rewrite upd_same; destruct Hp; congruence|rewrite upd_other; auto]. }
    destruct (wp s u) eqn:E; try discriminate; try (injection H as <-; eapply K; [| reflexivity|reflexivity]; auto; fail).
    destruct (Nat.eqb _ _); injection H as <-; (eapply K; [| reflexivity|reflexivity]); auto.
  - destruct (gp s); try discriminate. injection H as <-. auto.
  - destruct (gp s); try discriminate; try (injection H as <-; auto; fail).
    + destruct (Nat.eqb _ _); [injection H as <-; auto|]. destruct (_ <? _)%Z; [injection H as <-; auto|]. destruct (_ =? _)%Z; injection H as <-; auto.
    + destruct l; injection H as <-; auto.
Qed.
Lemma stay_run N M acts t : forall s, stays t acts -> is_in (wp s t) = true -> is_in (wp (run N M s acts) t) = true /\ opno (run N M s acts) t = opno s t.
Proof.
  induction acts as [|a r IH]; intros s Hs Hi; simpl; auto. assert (Hr : stays t r) by (intros H; apply Hs; right; auto).
  destruct (step N M a s) as [s'|] eqn:E; [|auto]. destruct (stay_step _ _ _ _ _ t E) as [A B]; auto; [intros ->; apply Hs; left; auto|]. rewrite <- B. auto.
Qed.
Lemma unl_step N M a s s' : step N M a s = Some s' -> unl s' = match a with AUnlink _ x => (x, inside_ops N s) :: unl s | _ => unl s end.
Proof.
  intros H. destruct a as [u|u x|u|u| |]; simpl in H.
  - destruct (Nat.ltb u N); [|discriminate]. destruct (wp s u) eqn:E; try discriminate. injection H as <-. auto.
  - destruct (wp s u) eqn:E; try discriminate. destruct (existsb _ _); [discriminate|]. injection H as <-. auto.
  - destruct (wp s u) eqn:E; try discriminate. injection H as <-. auto.
  - destruct (wp s u) eqn:E; try discriminate; try (injection H as <-; auto; fail). destruct (Nat.eqb _ _); injection H as <-; auto.
  - destruct (gp s); try discriminate. injection H as <-. auto.
  - destruct (gp s); try discriminate; try (injection H as <-; auto; fail).
    + destruct (Nat.eqb _ _); [injection H as <-; auto|]. destruct (_ <? _)%Z; [injection H as <-; auto|]. destruct (_ =? _)%Z; injection H as <-; auto.
    + destruct l; injection H as <-; auto.
Qed.
Lemma unl_mono N M acts : forall s y, In y (unl s) -> In y (unl (run N M s acts)).
Proof.
  induction acts as [|a r IH]; intros s y H; simpl; auto. destruct (step N M a s) as [s'|] eqn:E; [|auto]. apply IH. rewrite (unl_step _ _ _ _ _ E). destruct a; auto. right. auto.
Qed.
Lemma unlinked_unl N M acts : forall s x, In x (map fst (unl (run N M s acts))) <-> In x (map fst (unl s)) \/ In x (unlinked N M s acts).
Proof.
  induction acts as [|a r IH]; intros s x; simpl; [tauto|]. destruct (step N M a s) as [s'|] eqn:E; [|apply IH]. rewrite IH, (unl_step _ _ _ _ _ E). destruct a; simpl; tauto.
Qed.

Section C50.
Variable N : nat.
Variable M : Z.
Hypothesis HM : (Z.of_nat N <= M)%Z.
Let go := run N M init.

(** A page unlinked by [u] while an operation of [t] is inside is not released
    before that operation ends.  Partial: a deleted epoch is taken to keep its
    contents, see [C50_join_refuted]. *)
Theorem C50_safe_partial : forall before after t u x,
  is_in (wp (go before) t) = true -> step N M (AUnlink u x) (go before) <> None -> stays t after ->
  ~ In x (freed (go (before ++ AUnlink u x :: after))).
Proof.
  intros b a t u x Hi Hu Hs. destruct (step N M (AUnlink u x) (go b)) as [s1|] eqn:E; [clear Hu|contradiction].
  unfold go in *. assert (I : inv N M (run N M init b)) by (apply inv_run, inv_init; auto).
  assert (R : run N M init (b ++ AUnlink u x :: a) = run N M s1 a) by (rewrite run_app; cbn [run]; rewrite E; auto).
  destruct (stay_step _ _ _ _ _ t E) as [A1 A2]; auto; [discriminate|]. destruct (stay_run N M a t s1 Hs A1) as [B1 B2].
  assert (Ht : t < N) by (apply (wp_in N M (run N M init b)); auto; intros Q; rewrite Q in Hi; discriminate).
  rewrite R. apply (safe N M (run N M s1 a) x (inside_ops N (run N M init b)) t (opno (run N M init b) t)); auto.
  - apply inv_run; auto. eapply inv_step; eauto.
  - apply unl_mono. rewrite (unl_step _ _ _ _ _ E). left. auto.
  - unfold inside_ops. apply in_map_iff. exists t. split; auto. apply filter_In. split; auto. apply in_seq. lia.
  - congruence.
Qed.
(** A page is released at most once, and only if it was unlinked. *)
Theorem C50_once : forall acts, NoDup (freed (go acts)) /\ incl (freed (go acts)) (unlinked N M init acts).
Proof.
  intros acts. unfold go. assert (I : inv N M (run N M init acts)) by (apply inv_run, inv_init; auto). split; [eapply freed_nodup; eauto|].
  intros x Hx. apply (freed_gl N M _ x I) in Hx as (c & Hc & _). pose proof (i_gl _ _ _ I _ _ Hc) as Hx. apply unlinked_unl in Hx as [[]|Hx]. auto.
Qed.
(** Only JoinEpoch accesses a deleted epoch; no assertion fails. *)
Theorem C50_access_partial : forall acts, bad (go acts) = false.
Proof. intros acts. apply (i_bad N M). apply inv_run, inv_init; auto. Qed.
(** Once no operation is under way, two calls of PerformGarbageCollection
    release every page. *)
Theorem C50_released : forall acts, idle (go acts) -> exists n m,
  idle (go (acts ++ perform n ++ perform m)) /\ forall x, In x (unlinked N M init acts) -> In x (freed (go (acts ++ perform n ++ perform m))).
Proof.
  intros acts [H1 H2]. unfold go in *. assert (I : inv N M (run N M init acts)) by (apply inv_run, inv_init; auto).
  destruct (two_rounds N M HM _ I H1 H2) as (n & m & R & F & W). exists n, m. rewrite run_app. unfold perform in *. cbn [app]. split; [split; auto; intros t; rewrite W; auto|].
  intros x Hx. apply F. apply unlinked_unl. auto.
Qed.
(** The destructor releases every page that was unlinked, and no page twice; it
    ends with an empty list of epochs (7980). *)
Theorem C50_destroy : forall acts, idle (go acts) ->
  hd (destroy M (go acts)) = S (cur (go acts)) /\ NoDup (freed (destroy M (go acts))) /\ forall x, In x (freed (destroy M (go acts))) <-> In x (unlinked N M init acts).
Proof.
  intros acts [H1 H2]. unfold go in *. assert (I : inv N M (run N M init acts)) by (apply inv_run, inv_init; auto).
  destruct (destroy_ok N M _ I H1 H2) as (A & B & C). split; auto. split; auto. intros x. rewrite C, unlinked_unl. simpl. tauto.
Qed.
End C50.

(** JoinEpoch accesses a deleted epoch: it reads current_epoch_p, the cleaner
    runs twice, and the count it then increments has been deleted. *)
Definition w_join : list act := AInvoke 0 :: AClean :: repeat AGStep 2 ++ AClean :: repeat AGStep 4 ++ [AStep 0].
Theorem C50_join_refuted : exists acts, late (run 1 2147483647 init acts) = true.
Proof. exists w_join. vm_compute. reflexivity. Qed.

(** Two workers are inside, page 7 is unlinked, worker 0 leaves, the cleaner
    runs: the page stays until worker 1 leaves. *)
Definition w_start : list act := [AInvoke 0; AStep 0; AInvoke 1; AStep 1].
Definition w_mid : list act := [AStep 0; AStep 0; AStep 0; ALeave 0; AClean; AGStep; AGStep; AClean; AGStep; AGStep].
Definition w_end : list act := [ALeave 1; AClean; AGStep; AGStep; AGStep; AGStep; AGStep].
Example C50_example :
  is_in (wp (run 2 2147483647 init w_start) 1) = true /\ stays 1 w_mid /\
  hd (run 2 2147483647 init (w_start ++ AUnlink 0 7 :: w_mid)) = 0%nat /\ cur (run 2 2147483647 init (w_start ++ AUnlink 0 7 :: w_mid)) = 2%nat /\
  gl (es (run 2 2147483647 init (w_start ++ AUnlink 0 7 :: w_mid)) 0) = [7] /\
  freed (run 2 2147483647 init (w_start ++ AUnlink 0 7 :: w_mid)) = [] /\
  freed (run 2 2147483647 init (w_start ++ AUnlink 0 7 :: w_mid ++ w_end)) = [7] /\
  unlinked 2 2147483647 init (w_start ++ AUnlink 0 7 :: w_mid) = [7].
Proof. vm_compute. repeat split. intros H. repeat (destruct H as [H|H]; [discriminate|]). destruct H. Qed.
(** An idle state with a page that is not released yet, and its destruction. *)
Example C50_example_destroy :
  let s := run 2 2147483647 init (w_start ++ AUnlink 0 7 :: w_mid ++ [ALeave 1]) in
  idle s /\ freed s = [] /\ freed (destroy 2147483647 s) = [7].
Proof. cbv zeta. split; [split; [intros [|[|t]]; reflexivity|reflexivity]|]. vm_compute. auto. Qed.

Print Assumptions C50_safe_partial.
Print Assumptions C50_once.
Print Assumptions C50_access_partial.
Print Assumptions C50_released.
Print Assumptions C50_destroy.
Print Assumptions C50_join_refuted.
