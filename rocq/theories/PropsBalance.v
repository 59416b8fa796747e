(** C57: the success counters of the test programs agree with the stored set. *)
From Coq Require Import List Arith Bool Lia.
From Verif Require Import Base Tree TreeSpec TreeInv TreeLin TreeRun BalanceSpec Balance Inst.
Import ListNotations.

Lemma lin {P : Params} tr ss s : exec tr ss s -> linearizable false tr (sm s).
Proof. intros H. apply (linearizable_ok false tr ss s H). discriminate. Qed.

(** C57.  When no call is running, the stored pairs can be listed without
    repetition, and among those satisfying any [f] there are as many as
    successful inserts minus successful deletes of such pairs. *)
Theorem C57_balance : forall {P : Params} tr ss s, exec tr ss s -> quiet s ->
  exists S, NoDup S /\ (forall k v, In (k, v) S <-> contents (sm s) k v) /\
    forall f, count f S + count f (dels (visible tr)) = count f (adds (visible tr)).
Proof. intros P tr ss s Hx Hq. eapply quiet_balanced; eauto using lin. Qed.
Print Assumptions C57_balance.

(** C57.  The number of stored pairs is what StressTest computes in
    tree_size. *)
Theorem C57_tree_size : forall {P : Params} tr ss s, exec tr ss s -> quiet s ->
  exists S, NoDup S /\ (forall k v, In (k, v) S <-> contents (sm s) k v) /\
    length S = length (adds (visible tr)) - length (dels (visible tr)) /\
    length (dels (visible tr)) <= length (adds (visible tr)).
Proof.
  intros P tr ss s Hx Hq. destruct (C57_balance _ _ _ Hx Hq) as (S & NS & HS & Hc).
  exists S. split; [exact NS|]. split; [exact HS|]. specialize (Hc all). rewrite !count_all in Hc. lia.
Qed.
Print Assumptions C57_tree_size.

(** C57.  For a single pair: stored if one more insert than deletes
    succeeded, otherwise as many. *)
Theorem C57_pair : forall {P : Params} tr ss s k v, exec tr ss s -> quiet s ->
  (contents (sm s) k v /\
     count (only k v) (adds (visible tr)) = S (count (only k v) (dels (visible tr)))) \/
  (~ contents (sm s) k v /\
     count (only k v) (adds (visible tr)) = count (only k v) (dels (visible tr))).
Proof.
  intros P tr ss s k v Hx Hq. destruct (C57_balance _ _ _ Hx Hq) as (S & NS & HS & Hc).
  specialize (Hc (only k v)). pose proof (count_only_nodup k v S NS).
  assert (In (k, v) S \/ ~ In (k, v) S) as [X|X].
  { clear. induction S as [|(k', v') S IH]; [right; intros []|]. destruct IH as [IH|IH]; [left; right; exact IH|].
    destruct (only k v k' v') eqn:E.
    - apply only_true in E. destruct E as (-> & ->). left. left. reflexivity.
    - right. intros [X|X]; [|auto]. injection X as -> ->.
      rewrite (proj2 (only_true k v k v)) in E by auto. discriminate. }
  - left. split; [apply HS, X|]. apply count_only_in in X. lia.
  - right. rewrite <- HS. split; [exact X|]. rewrite (count_only_out _ _ _ X) in Hc. lia.
Qed.
Print Assumptions C57_pair.

(** C57.  With calls still running, the counters are off by calls that are
    running: for some of them, each of a different thread, a response can be
    chosen so that the account balances. *)
Theorem C57_running : forall {P : Params} tr ss s, exec tr ss s ->
  exists D S, NoDup (map fst D) /\ (forall t o r, In (t, (o, r)) D -> exists p, running s t = Some (o, p)) /\
    NoDup S /\ (forall k v, In (k, v) S <-> contents (sm s) k v) /\
    forall f, count f S + (count f (dels (visible tr)) + count f (losses D)) =
              count f (adds (visible tr)) + count f (gains D).
Proof. intros P tr ss s Hx. eapply exec_balanced; eauto using lin. Qed.
Print Assumptions C57_running.

(** C57.  MixedTest1: every pair is inserted by at most one call, and of every
    pair that is tried some Delete has succeeded (the deleting threads retry
    until then).  Then every Insert has succeeded, exactly one Delete of each
    pair has, none of another pair, and the index is empty. *)
Theorem C57_mixed_test : forall {P : Params} tr ss s, exec tr ss s -> quiet s ->
  (forall k v, tries k v (visible tr) <= 1) ->
  (forall k v, 1 <= tries k v (visible tr) -> In (k, v) (dels (visible tr))) ->
  forall k v, ~ contents (sm s) k v /\
    count (only k v) (adds (visible tr)) = tries k v (visible tr) /\
    count (only k v) (dels (visible tr)) = tries k v (visible tr).
Proof.
  intros P tr ss s Hx Hq H1 H2 k v. specialize (H1 k v). specialize (H2 k v).
  pose proof (exec_tries _ _ _ k v Hx) as H3.
  assert (H4 : 1 <= tries k v (visible tr) -> 1 <= count (only k v) (dels (visible tr)))
    by (intros X; apply count_only_in; auto).
  destruct (C57_pair _ _ _ k v Hx Hq) as [(A & E)|(A & E)].
  - exfalso. assert (1 <= tries k v (visible tr)) by lia. specialize (H4 H). lia.
  - split; [exact A|]. lia.
Qed.
Print Assumptions C57_mixed_test.

(** * Concrete executions *)
#[local] Existing Instance natP.

(** MixedTest1 with two threads and three keys.  Thread 1 first fails to
    delete 0; then it removes pairs whose Insert by thread 0 has taken effect
    but not returned. *)
Definition mixed : list cmd :=
  [CCall 0 (OpIns 0 0) 40] ++ whole 1 (OpDel 0 0) ++ [CStep 0 400] ++ whole 1 (OpDel 0 0) ++
  whole 1 (OpDel 2 2) ++ [CRet 0; CCall 0 (OpIns 2 2) 40; CStep 0 400; CCall 1 (OpDel 2 2) 40; CRet 0;
    CCall 0 (OpIns 4 4) 40; CStep 1 400; CRet 1; CStep 0 400; CRet 0] ++ whole 1 (OpDel 4 4).
Definition three (l : list vis) : bool :=
  forallb (fun e => match e with
    | VCall _ (OpIns k v) => existsb (fun x => only k v (fst x) (snd x)) (dels l) && (tries k v l =? 1)
    | VCall _ (OpCond _ _ _) => false
    | _ => true end) l.
Lemma three_ok l : three l = true ->
  (forall k v, tries k v l <= 1) /\ (forall k v, 1 <= tries k v l -> In (k, v) (dels l)).
Proof.
  intros H. unfold three in H. rewrite forallb_forall in H.
  assert (G : forall k v, 1 <= tries k v l -> tries k v l = 1 /\ In (k, v) (dels l)).
  { intros k v Hk.
    assert (exists e, In e l /\ match e with
      | VCall _ (OpIns k' v') | VCall _ (OpCond k' v' _) => only k v k' v' | _ => false end = true) as (e & He & Ho).
    { unfold tries in Hk. destruct (filter _ l) as [|e l'] eqn:E in Hk; [simpl in Hk; lia|].
      assert (X : In e (e :: l')) by (left; reflexivity). rewrite <- E in X. apply filter_In in X.
      exists e. exact X. }
    specialize (H e He). destruct e as [t o|t o r]; [|discriminate].
    destruct o as [k' v'|k' v'|k' v' pred|k'|k'|k'|]; try discriminate.
    apply (only_true k v) in Ho. destruct Ho as (-> & ->). apply andb_true_iff in H. destruct H as (A & B).
    split; [apply Nat.eqb_eq, B|]. apply existsb_exists in A. destruct A as ((k1 & v1) & A & C).
    apply (only_true k v) in C. simpl in C. destruct C as (-> & ->). exact A. }
  split; intros k v; [|apply G]. destruct (tries k v l) eqn:E; [lia|]. rewrite <- E. rewrite (proj1 (G k v ltac:(lia))). lia.
Qed.
Example C57_mixed_example : let c := play mixed in
  cexec c /\ quiet (c_s c) /\ (forall k v, ~ contents (sm (c_s c)) k v) /\
  adds (visible (c_tr c)) = [(4, 4); (2, 2); (0, 0)] /\ dels (visible (c_tr c)) = [(4, 4); (2, 2); (0, 0)] /\
  length (filter (fun e => match e with VRet _ (OpDel _ _) _ => true | _ => false end) (visible (c_tr c))) = 5.
Proof.
  assert (Hx : cexec (play mixed)) by apply play_exec.
  assert (Hq : quiet (c_s (play mixed))).
  { apply (quietb_ok _ _ _ Hx). vm_compute. reflexivity. }
  assert (H3 : three (visible (c_tr (play mixed))) = true) by (vm_compute; reflexivity).
  apply three_ok in H3. destruct H3 as (H1 & H2).
  cbv zeta. split; [exact Hx|]. split; [exact Hq|].
  split; [intros k v; apply (C57_mixed_test _ _ _ Hx Hq H1 H2)|]. vm_compute. auto.
Qed.

(** StressTest: pairs are inserted again after a delete, inserts and deletes
    fail; ConditionalInsert counts like Insert. *)
Definition stress : list cmd :=
  whole 0 (OpIns 1 1) ++ whole 2 (OpIns 1 1) ++ whole 1 (OpDel 1 1) ++ whole 3 (OpDel 1 1) ++
  whole 2 (OpIns 1 1) ++ whole 0 (OpIns 1 2) ++ whole 0 (OpCond 5 7 (fun _ => false)) ++
  [CCall 0 (OpIns 3 3) 40; CStep 0 1; CCall 2 (OpIns 3 3) 40; CStep 2 400; CStep 0 400; CRet 0; CRet 2] ++
  whole 3 (OpDel 1 2).
Example C57_stress_example : let c := play stress in
  cexec c /\ quiet (c_s c) /\ length (adds (visible (c_tr c))) = 5 /\ length (dels (visible (c_tr c))) = 2 /\
  contents (sm (c_s c)) 1 1 /\ ~ contents (sm (c_s c)) 1 2.
Proof.
  assert (Hx : cexec (play stress)) by apply play_exec.
  assert (Hq : quiet (c_s (play stress))).
  { apply (quietb_ok _ _ _ Hx). vm_compute. reflexivity. }
  cbv zeta. split; [exact Hx|]. split; [exact Hq|]. split; [vm_compute; reflexivity|]. split; [vm_compute; reflexivity|].
  split.
  - destruct (@C57_pair natP _ _ _ 1 1 Hx Hq) as [(A & _)|(_ & E)]; [exact A|]. vm_compute in E. discriminate.
  - destruct (@C57_pair natP _ _ _ 1 2 Hx Hq) as [(_ & E)|(A & _)]; [|exact A]. vm_compute in E. discriminate.
Qed.

(** C57.  While calls are running the difference can be negative: a Delete
    may return before the Insert it undoes, so tree_size (an unsigned counter,
    read and printed by any thread at any time) can pass below zero. *)
Theorem C57_midway_refuted : exists tr ss s,
  exec tr ss s /\ length (adds (visible tr)) < length (dels (visible tr)).
Proof.
  set (c := play (firstn 8 mixed)). exists (c_tr c), (c_ss c), (c_s c).
  split; [apply play_exec|]. vm_compute. lia.
Qed.
Print Assumptions C57_midway_refuted.
