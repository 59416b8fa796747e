(** C51: the reader-writer lock of the B+-tree benchmarks.

    [n] threads that lock, access the data and unlock; [l] is any interleaving,
    with any choice of the values the relaxed loads may return and of spurious
    failures.  The first argument of [run] after [n] is [false] for the code as
    it is. *)
From Coq Require Import List Arith ZArith Lia Bool.
From Verif Require Import Spinlock SpinlockProofs.
Import ListNotations.

(** Thread [t] is between the return of the lock function and the call of the
    unlock function. *)
Definition reader (s : st) (t : nat) : Prop := at_ (ths s t) = RIn.
Definition writer (s : st) (t : nat) : Prop := at_ (ths s t) = WIn.
(** A data race (C++11 1.10): an access of thread [t], a write if [w], would
    conflict with an earlier one that does not happen before it. *)
Definition races (s : st) (t : nat) (w : bool) : Prop :=
  exists i w', nth_error (log s) i = Some w' /\ w || w' = true /\ ~ In i (cur (ths s t)).

(** A writer is alone. *)
Theorem C51_exclusion n fx l t u : let s := run n fx init l in writer s t -> reader s u \/ writer s u -> t = u.
Proof.
  intros s Ht Hu. assert (I : inv n fx s) by apply inv_run, inv_init. unfold reader, writer in *.
  destruct Hu as [Hu|Hu]; [exfalso; apply (rd_wr n fx s u t I); [rewrite Hu|rewrite Ht]; auto|]. apply (wr_wr n fx s t u I); [rewrite Ht|rewrite Hu]; auto.
Qed.

(** The assertions of the unlock functions hold, whatever the loads return. *)
Theorem C51_assertions n fx l t : at_ (ths (run n fx init l) t) <> Failed.
Proof. intros H. pose proof (i_loc _ _ _ (inv_run n fx l init (inv_init n fx)) t) as [_ L]. rewrite H in L. auto. Qed.

(** The lock word is -1 or at most the number of threads: no overflow. *)
Lemma cnt_le n f g : cnt n f g <= n.
Proof.
  unfold cnt. assert (H : forall (p : nat -> bool) l, length (filter p l) <= length l) by (intros p l; induction l as [|a l IH]; simpl; auto; destruct (p a); simpl; lia).
  specialize (H (fun t => f (at_ (g t))) (seq 0 n)). rewrite seq_length in H. auto.
Qed.
Definition small (n : nat) (m : msg) : Prop := (-1 <= val m <= Z.of_nat n)%Z.
Lemma top_small n fx s : inv n fx s -> small n (top s).
Proof. intros I. pose proof (i_val _ _ _ I) as V. pose proof (cnt_le n reading (ths s)). unfold small, rds, WRITE_LOCK in *. lia. Qed.
Lemma step_hist fx s t c s' : step fx s t c = Some s' -> hist s' = hist s \/ hist s' = hist s ++ [top s'].
Proof.
  intros H. unfold step in H. destruct (at_ (ths s t)), c; try discriminate; cbv zeta in H;
    try (injection H as <-; left; reflexivity);
    try (destruct (load s (ths s t) j) as [[v x]|]; [|discriminate]; injection H as <-; left; reflexivity);
    (unfold cas in H; destruct (Z.eqb _ _); [|discriminate]; injection H as <-; right; cbn [hist]; f_equal; f_equal; symmetry; eapply top_app; reflexivity).
Qed.
Lemma range_run n fx l : forall s, inv n fx s -> Forall (small n) (hist s) -> Forall (small n) (hist (run n fx s l)).
Proof.
  induction l as [|[t c] r IH]; intros s I F; simpl; auto. destruct (Nat.ltb_spec t n); [|auto].
  destruct (step fx s t c) as [s'|] eqn:E; [|auto]. assert (I' : inv n fx s') by (eapply inv_step; eauto). apply IH; auto.
  destruct (step_hist _ _ _ _ _ E) as [-> | ->]; auto. apply Forall_app. split; auto. constructor; auto. eapply top_small; eauto.
Qed.
Theorem C51_range n fx l m : In m (hist (run n fx init l)) -> (-1 <= val m <= Z.of_nat n)%Z.
Proof.
  intros H. assert (F : Forall (small n) (hist (run n fx init l))).
  { apply range_run; [apply inv_init|]. constructor; auto. unfold small. simpl. unfold UNLOCK. lia. }
  rewrite Forall_forall in F. apply F. auto.
Qed.

(** Nothing a reader does is a data race: every write so far happens before. *)
Theorem C51_reader n fx l t : let s := run n fx init l in reader s t -> ~ races s t false.
Proof.
  intros s Ht (i & w & Hi & Hw & Hn). assert (I : inv n fx s) by apply inv_run, inv_init. simpl in Hw. subst w.
  unfold reader in Ht. pose proof (i_r _ _ _ I t i ltac:(rewrite Ht; auto) Hi) as L. unfold learnt in L. rewrite Ht in L. auto.
Qed.

(** A writer races with the section before it: write_lock ends with a release
    fence and never acquires.  Both for a write after a read and for a write
    after a write. *)
Definition by_ (t : nat) (l : list choice) : list (nat * choice) := map (pair t) l.
Definition w_then_w : list (nat * choice) :=
  by_ 0 [Wr; See 0; Swap; Go; Wr; Done; See 1; Go; Swap] ++ by_ 1 [Wr; See 2; Swap; Go].
Definition r_then_w : list (nat * choice) :=
  by_ 0 [Rd; See 0; Swap; Go; Rd; Done; See 1; Go; Swap] ++ by_ 1 [Wr; See 2; Swap; Go].
Theorem C51_writer_refuted :
  (exists l, let s := run 2 false init l in writer s 1 /\ races s 1 true /\ races s 1 false) /\
  (exists l, let s := run 2 false init l in writer s 1 /\ races s 1 true /\ log s = [false]).
Proof.
  assert (K : forall s w', log s = [w'] -> cur (ths s 1) = [] -> forall w, w || w' = true -> races s 1 w).
  { intros s w' El Ec w Hw. exists 0, w'. rewrite El, Ec. split; [reflexivity|]. split; [exact Hw|intros []]. }
  split.
  - exists w_then_w. split; [vm_compute; reflexivity|]. split; (apply (K _ true); [vm_compute; reflexivity|vm_compute; reflexivity|reflexivity]).
  - exists r_then_w. split; [vm_compute; reflexivity|]. split; [|vm_compute; reflexivity]. apply (K _ false); [vm_compute; reflexivity|vm_compute; reflexivity|reflexivity].
Qed.

(** With an acquire fence at the end of write_lock there is no race. *)
Theorem C51_repaired n l t w : let s := run n true init l in (reader s t /\ w = false) \/ writer s t -> ~ races s t w.
Proof.
  intros s H. assert (I : inv n true s) by apply inv_run, inv_init. destruct H as [[H ->]|H]; [apply (C51_reader n true l t H)|].
  intros (i & w' & Hi & _ & Hn). unfold writer in H. assert (Hl : i < length (log s)) by (apply nth_error_Some; congruence).
  pose proof (i_w _ _ _ I t i eq_refl ltac:(rewrite H; auto) Hl) as L. unfold learnt in L. rewrite H in L. auto.
Qed.

(** Nobody is locked out for good: while nobody holds the lock an idle thread
    can take it either way, and a holder can always release it. *)
Definition free (s : st) : Prop := forall t, reading (at_ (ths s t)) = false /\ writing (at_ (ths s t)) = false.
Lemma top_nth n fx s : inv n fx s -> nth_error (hist s) (length (hist s) - 1) = Some (top s) /\ 0 < length (hist s).
Proof.
  intros I. pose proof (i_pos _ _ _ I 0) as P. split; [|lia]. unfold top. destruct (hist s) as [|a h] eqn:E using rev_ind; [simpl in P; lia|].
  rewrite app_length, last_last. simpl. rewrite nth_error_app2 by lia. replace (length h + 1 - 1 - length h) with 0 by lia. auto.
Qed.
Lemma load_top n fx s x : inv n fx s -> pos x < length (hist s) ->
  load s x (length (hist s) - 1) = Some (val (top s), {| at_ := at_ x; pos := length (hist s) - 1; cur := cur x; acq := view (top s) ++ acq x; rel := rel x |}).
Proof. intros I P. destruct (top_nth _ _ _ I) as [E H]. unfold load. rewrite E. destruct (Nat.leb_spec (pos x) (length (hist s) - 1)); [auto|lia]. Qed.
Lemma zero_free n fx s : inv n fx s -> free s -> val (top s) = 0%Z.
Proof.
  intros I F. destruct (i_val _ _ _ I) as [[_ V]|[V _]].
  - rewrite V. destruct (rds n s) eqn:E; auto. destruct (cnt_pos reading (ths s) n ltac:(unfold rds in E; lia)) as (t & _ & H). destruct (F t). congruence.
  - destruct (cnt_pos writing (ths s) n ltac:(unfold wrs in V; lia)) as (t & _ & H). destruct (F t). congruence.
Qed.
Lemma run_step n fx s t c s' l : t < n -> step fx s t c = Some s' -> run n fx s ((t, c) :: l) = run n fx s' l.
Proof. intros H E. simpl. apply Nat.ltb_lt in H. rewrite H, E. auto. Qed.
Lemma step_load n fx s t (k : Z -> pc) : inv n fx s -> exists x, at_ x = k (val (top s)) /\
  (match load s (ths s t) (length (hist s) - 1) with Some (v, x') => Some (set_t s t (goto x' (k v))) | None => None end) = Some (set_t s t x).
Proof. intros I. rewrite (load_top n fx s _ I) by apply (i_pos _ _ _ I). eexists. split; [|reflexivity]. auto. Qed.
Theorem C51_available n fx l t : t < n -> let s := run n fx init l in
  (free s -> at_ (ths s t) = Idle -> (exists l', reader (run n fx s l') t) /\ (exists l', writer (run n fx s l') t)) /\
  (reader s t \/ writer s t -> exists l', at_ (ths (run n fx s l') t) = Idle).
Proof.
  intros Hn s. assert (I : inv n fx s) by apply inv_run, inv_init. set (j := length (hist s) - 1). unfold reader, writer.
  assert (G : forall x, top (set_t s t x) = top s) by auto.
  assert (U : forall x, ths (set_t s t x) t = x) by (intros x; apply upd_same).
  destruct (top_nth _ _ _ I) as [Et _].
  split.
  - intros F Hi. pose proof (zero_free n fx s I F) as Z0. split.
    + exists (by_ t [Rd; See j; Swap; Go]). cbn [by_ map].
      assert (S1 : step fx s t Rd = Some (set_t s t (goto (ths s t) RLoad))) by (unfold step; rewrite Hi; auto).
      rewrite (run_step _ _ _ _ _ _ _ Hn S1). pose proof (inv_step _ _ _ _ _ _ I Hn S1) as I1. set (s1 := set_t s t _) in *.
      destruct (step_load n fx s1 t (fun v => if (0 <=? v)%Z then RCas v else RLoad) I1) as (x & Ex & S2).
      rewrite (run_step n fx s1 t (See j) (set_t s1 t x)); [|auto|unfold step; unfold s1 at 1; rewrite U; exact S2].
      change (top s1) with (top s) in Ex. rewrite Z0 in Ex. simpl in Ex. set (s2 := set_t s1 t x).
      assert (U2 : ths s2 t = x) by apply upd_same.
      rewrite (run_step n fx s2 t Swap {| hist := hist s2 ++ [{| val := 1; view := rel x ++ view (top s) |}];
        ths := upd (ths s2) t {| at_ := RFence; pos := length (hist s2); cur := cur x; acq := view (top s) ++ acq x; rel := rel x |}; log := log s2 |});
        [|auto|unfold step; rewrite U2, Ex; unfold cas; rewrite U2; change (top s2) with (top s); rewrite Z0; reflexivity].
      simpl. apply Nat.ltb_lt in Hn. rewrite Hn. unfold step. simpl. rewrite upd_same. simpl. rewrite upd_same. auto.
    + exists (by_ t [Wr; See j; Swap; Go]). cbn [by_ map].
      assert (S1 : step fx s t Wr = Some (set_t s t (goto (ths s t) WLoad))) by (unfold step; rewrite Hi; auto).
      rewrite (run_step _ _ _ _ _ _ _ Hn S1). pose proof (inv_step _ _ _ _ _ _ I Hn S1) as I1. set (s1 := set_t s t _) in *.
      destruct (step_load n fx s1 t (fun v => if (v =? UNLOCK)%Z then WCas v else WLoad) I1) as (x & Ex & S2).
      rewrite (run_step n fx s1 t (See j) (set_t s1 t x)); [|auto|unfold step; unfold s1 at 1; rewrite U; exact S2].
      change (top s1) with (top s) in Ex. rewrite Z0 in Ex. simpl in Ex. set (s2 := set_t s1 t x).
      assert (U2 : ths s2 t = x) by apply upd_same.
      rewrite (run_step n fx s2 t Swap {| hist := hist s2 ++ [{| val := -1; view := rel x ++ view (top s) |}];
        ths := upd (ths s2) t {| at_ := WFence; pos := length (hist s2); cur := cur x; acq := view (top s) ++ acq x; rel := rel x |}; log := log s2 |});
        [|auto|unfold step; rewrite U2, Ex; unfold cas; rewrite U2; change (top s2) with (top s); rewrite Z0; reflexivity].
      simpl. apply Nat.ltb_lt in Hn. rewrite Hn. unfold step. simpl. rewrite upd_same. simpl. rewrite upd_same. destruct fx; auto.
  - intros [Hi|Hi].
    + exists (by_ t [Done; See j; Go; Swap]). cbn [by_ map].
      pose proof (i_rd _ _ _ I t (length (hist s) - 1) (top s) ltac:(rewrite Hi; auto) ltac:(pose proof (i_pos _ _ _ I t); lia) Et) as V. apply Z.ltb_lt in V.
      assert (S1 : step fx s t Done = Some (set_t s t (goto (ths s t) RULoad))) by (unfold step; rewrite Hi; auto).
      rewrite (run_step _ _ _ _ _ _ _ Hn S1). pose proof (inv_step _ _ _ _ _ _ I Hn S1) as I1. set (s1 := set_t s t _) in *.
      destruct (step_load n fx s1 t (fun v => if (0 <? v)%Z then RUFence v else Failed) I1) as (x & Ex & S2).
      rewrite (run_step n fx s1 t (See j) (set_t s1 t x)); [|auto|unfold step; unfold s1 at 1; rewrite U; exact S2].
      change (top s1) with (top s) in Ex. rewrite V in Ex. set (s2 := set_t s1 t x). assert (U2 : ths s2 t = x) by apply upd_same.
      rewrite (run_step n fx s2 t Go (set_t s2 t (release x (RUCas (val (top s)))))); [|auto|unfold step; rewrite U2, Ex; auto].
      set (s3 := set_t s2 t _). assert (U3 : at_ (ths s3 t) = RUCas (val (top s))) by (unfold s3; simpl; rewrite upd_same; auto).
      simpl. apply Nat.ltb_lt in Hn. rewrite Hn. unfold step. rewrite U3. unfold cas. change (top s3) with (top s). rewrite Z.eqb_refl. simpl. rewrite upd_same. auto.
    + exists (by_ t [Done; See j; Go; Swap]). cbn [by_ map].
      pose proof (i_wr _ _ _ I t (length (hist s) - 1) (top s) ltac:(rewrite Hi; auto) ltac:(pose proof (i_pos _ _ _ I t); lia) Et) as V. apply Z.eqb_eq in V.
      assert (S1 : step fx s t Done = Some (set_t s t (goto (ths s t) WULoad))) by (unfold step; rewrite Hi; auto).
      rewrite (run_step _ _ _ _ _ _ _ Hn S1). pose proof (inv_step _ _ _ _ _ _ I Hn S1) as I1. set (s1 := set_t s t _) in *.
      destruct (step_load n fx s1 t (fun v => if (v =? WRITE_LOCK)%Z then WUFence v else Failed) I1) as (x & Ex & S2).
      rewrite (run_step n fx s1 t (See j) (set_t s1 t x)); [|auto|unfold step; unfold s1 at 1; rewrite U; exact S2].
      change (top s1) with (top s) in Ex. rewrite V in Ex. set (s2 := set_t s1 t x). assert (U2 : ths s2 t = x) by apply upd_same.
      rewrite (run_step n fx s2 t Go (set_t s2 t (release x (WUCas (val (top s)))))); [|auto|unfold step; rewrite U2, Ex; auto].
      set (s3 := set_t s2 t _). assert (U3 : at_ (ths s3 t) = WUCas (val (top s))) by (unfold s3; simpl; rewrite upd_same; auto).
      simpl. apply Nat.ltb_lt in Hn. rewrite Hn. unfold step. rewrite U3. unfold cas. change (top s3) with (top s). rewrite Z.eqb_refl. simpl. rewrite upd_same. auto.
Qed.

(** Two readers inside together, after a writer; their loads are stale (value 0
    of line [See 0] is read after it was replaced). *)
Definition demo : list (nat * choice) :=
  by_ 0 [Wr; See 0; Swap; Go; Wr; Done; See 1; Go; Swap] ++
  by_ 1 [Rd; See 0; Swap; Go; Rd] ++ by_ 2 [Rd; See 0; Swap; See 3; See 3; Swap; Go] ++
  by_ 1 [Done; See 3; Go; Swap; See 4; See 4; Go].
Example C51_example : let s := run 3 false init demo in
  reader s 2 /\ at_ (ths s 1) = RUCas 2 /\ map val (hist s) = [0; -1; 0; 1; 2]%Z /\ log s = [true; false] /\ cur (ths s 2) = [0; 0; 0] /\ ~ races s 2 false.
Proof.
  set (s := run 3 false init demo). assert (R : reader s 2) by (vm_compute; reflexivity). split; [exact R|].
  split; [vm_compute; reflexivity|]. split; [vm_compute; reflexivity|]. split; [vm_compute; reflexivity|]. split; [vm_compute; reflexivity|].
  exact (C51_reader 3 false demo 2 R).
Qed.
Example C51_example_repaired : let s := run 2 true init w_then_w in writer s 1 /\ ~ races s 1 true /\ log s = [true].
Proof.
  set (s := run 2 true init w_then_w). assert (R : writer s 1) by (vm_compute; reflexivity). split; [exact R|].
  split; [exact (C51_repaired 2 w_then_w 1 true (or_intror R))|vm_compute; reflexivity].
Qed.

Print Assumptions C51_exclusion.
Print Assumptions C51_assertions.
Print Assumptions C51_range.
Print Assumptions C51_reader.
Print Assumptions C51_writer_refuted.
Print Assumptions C51_repaired.
Print Assumptions C51_available.
