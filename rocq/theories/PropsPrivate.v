(** C58: pairs that only one thread updates behave as in a set of that
    thread, whatever the other threads do. *)
From Coq Require Import List Arith Bool Lia.
From Verif Require Import Base Leaf Tree TreeSpec TreeInv TreeLin TreeRun BalanceSpec Balance PrivateSpec Private Inst PrivateGet.
From Verif Require Import PropsTree PropsBalance.
Import ListNotations.

(** C58.  Every Insert, Delete and ConditionalInsert of a pair that only thread
    [t] updates returns what the earlier responses of [t] entail. *)
Theorem C58_private_responses : forall {P : Params} tr ss s t k v,
  exec tr ss s -> private t k v (visible tr) ->
  forall l1 o r l2, visible tr = l1 ++ VRet t o r :: l2 -> target o = Some (k, v) -> answer o (own k v l2) r.
Proof. intros P tr ss s t k v Hx Hp. apply (exec_mine false t k v tr ss s Hx (C01_linearizable _ _ _ Hx) Hp). Qed.
Print Assumptions C58_private_responses.

(** C58.  While [t] is not in an update of the pair, the pair is stored iff the
    responses of [t] say so. *)
Theorem C58_private_stored : forall {P : Params} tr ss s t k v,
  exec tr ss s -> private t k v (visible tr) ->
  (forall o p, running s t = Some (o, p) -> target o <> Some (k, v)) ->
  (contents (sm s) k v <-> own k v (visible tr) = true).
Proof. intros P tr ss s t k v Hx Hp. apply (exec_mine false t k v tr ss s Hx (C01_linearizable _ _ _ Hx) Hp). Qed.
Print Assumptions C58_private_stored.

(** C58.  GetValue by the only thread that updates a key returns only values
    that are there according to its own responses, each once. *)
Theorem C58_get_own : forall {P : Params} tr ss s t k,
  exec tr ss s -> keeper t k (visible tr) ->
  forall l1 vs l2, visible tr = l1 ++ VRet t (OpGet k) (RVals vs) :: l2 ->
    NoDup vs /\ forall v, In v vs -> own k v l2 = true.
Proof.
  intros P tr ss s t k Hx Hp l1 vs l2 E. destruct (private_moment tr ss s t k Hx Hp _ _ _ E) as (s1 & _ & Ho & Hn & Hv & _).
  split; [exact Hn|]. intros v H. apply Ho, Hv, H.
Qed.
Print Assumptions C58_get_own.

(** C58.  It returns exactly these values in executions in which the page of
    the key never has a data update above an unconsolidated merge.  The full
    statement (without this condition) is false, see [C58_get_refuted]. *)
Theorem C58_get_partial : forall {P : Params} tr ss s t k,
  exec tr ss s -> (forall s', In s' ss -> page_clean (sm s') k) -> keeper t k (visible tr) ->
  forall l1 vs l2, visible tr = l1 ++ VRet t (OpGet k) (RVals vs) :: l2 ->
    NoDup vs /\ forall v, In v vs <-> own k v l2 = true.
Proof.
  intros P tr ss s t k Hx Hc Hp l1 vs l2 E. destruct (private_moment tr ss s t k Hx Hp _ _ _ E) as (s1 & Hi & Ho & Hn & Hv & Hw).
  split; [exact Hn|]. intros v. rewrite <- Ho. split; [apply Hv|apply Hw, Hc, Hi].
Qed.
Print Assumptions C58_get_partial.

(** C58.  The basic tests' insert phase: only Inserts (and reads), every pair
    by one call.  Then every Insert that has returned has returned true, and
    a pair whose Insert has returned is stored, whoever is still running. *)
Theorem C58_insert_test : forall {P : Params} tr ss s,
  exec tr ss s ->
  (forall t o, In (VCall t o) (visible tr) -> no_removal o) ->
  (forall k v, tries k v (visible tr) <= 1) ->
  forall t k v r, In (VRet t (OpIns k v) r) (visible tr) -> r = RBool true /\ contents (sm s) k v.
Proof. intros P tr ss s Hx Ho Hn t k v r. apply (insert_test false tr ss s t k v r Hx (C01_linearizable _ _ _ Hx) Ho Hn). Qed.
Print Assumptions C58_insert_test.

(** * Concrete executions *)
#[local] Existing Instance natP.

Definition keyed (t : nat) (k : nat) (e : vis) : bool :=
  match e with
  | VCall u o => match target o with Some (k', _) => negb (k =? k') || (u =? t) | None => true end
  | VRet _ _ _ => true
  end.
Lemma keyed_ok t k l : forallb (keyed t k) l = true -> @keeper natP t k l.
Proof.
  intros H v u o Hu E. rewrite forallb_forall in H. apply H in Hu. simpl in Hu. rewrite E in Hu.
  rewrite Nat.eqb_refl in Hu. apply Nat.eqb_eq. exact Hu.
Qed.

(** The race of PropsTree with a third thread that inserts key 50 twice,
    deletes it and inserts it again, before, during and after the split. *)
Definition private_race : list cmd :=
  ins 1 40 ++ whole 3 (OpIns 50 7) ++ ins 51 87 ++
  [CCall 0 (OpIns 200 1) 40; CStep 0 6] ++ whole 3 (OpIns 50 7) ++ whole 3 (OpDel 50 7) ++
  [CCall 3 (OpIns 50 8) 40; CStep 3 3; CStep 0 400; CRet 0; CStep 3 400; CRet 3] ++
  whole 3 (OpIns 50 9) ++ whole 3 (OpDel 50 7) ++ whole 3 (OpGet 50) ++ [CCall 1 (OpDel 60 1) 40; CStep 1 2].
Example private_race_runs : let c := play private_race in
  forallb (keyed 3 50) (visible (c_tr c)) &&
  forallb (fun s => leaves_cleanb (sm s)) (c_ss c) &&
  match visible (c_tr c) with
  | VCall 1 (OpDel 60 1) :: VRet 3 (OpGet 50) (RVals [8; 9]) :: VCall 3 (OpGet 50) ::
    VRet 3 (OpDel 50 7) (RBool false) :: VCall 3 (OpDel 50 7) :: VRet 3 (OpIns 50 9) (RBool true) :: _ => true
  | VCall 1 (OpDel 60 1) :: VRet 3 (OpGet 50) (RVals [9; 8]) :: VCall 3 (OpGet 50) ::
    VRet 3 (OpDel 50 7) (RBool false) :: VCall 3 (OpDel 50 7) :: VRet 3 (OpIns 50 9) (RBool true) :: _ => true
  | _ => false end &&
  (4 <=? nid (sm (c_s c))) && match now (visible (c_tr c)) 3 with None => true | _ => false end && own 50 8 (visible (c_tr c)) && negb (own 50 7 (visible (c_tr c))) = true.
Proof. vm_compute. reflexivity. Qed.
Example C58_example : let c := play private_race in
  cexec c /\ contents (sm (c_s c)) 50 8 /\ ~ contents (sm (c_s c)) 50 7 /\
  forall l1 vs l2, visible (c_tr c) = l1 ++ VRet 3 (OpGet 50) (RVals vs) :: l2 ->
    NoDup vs /\ forall v, In v vs <-> own 50 v l2 = true.
Proof.
  pose proof private_race_runs as H. cbv zeta in *. assert (Hx : cexec (play private_race)) by apply play_exec.
  revert H Hx. generalize (play private_race). intros c H Hx.
  rewrite !andb_true_iff in H. destruct H as ((((((H1 & H2) & _) & _) & H4) & H5) & H6).
  apply keyed_ok in H1. apply negb_true_iff in H6. split; [exact Hx|].
  assert (Hn : forall v o p, running (c_s c) 3 = Some (o, p) -> target o <> Some (50, v)).
  { intros v o p E. pose proof (exec_now _ _ _ Hx 3) as N. rewrite E in N. simpl in N. rewrite <- N in H4. discriminate. }
  split; [apply (@C58_private_stored natP _ _ _ 3 50 8 Hx (H1 8) (Hn 8)), H5|].
  split; [intros X; apply (@C58_private_stored natP _ _ _ 3 50 7 Hx (H1 7) (Hn 7)) in X; congruence|].
  apply (@C58_get_partial natP _ _ _ 3 50 Hx); [|exact H1]. intros s' Hs. apply (TreeLin.clean_exact (sm s') (@OpGet natP 50)). apply (all_cleanb_ok _ _ _ Hx H2 s' Hs).
Qed.

(** Two threads insert keys of their own, one of them is still inside its
    last Insert, which has just split the page. *)
Definition insert_phase : list cmd :=
  flat_map (fun i => whole 0 (OpIns i 1) ++ [CCall 1 (OpIns (1000 + i) 2) 40; CStep 1 2] ++ whole 2 (OpGet i) ++
    [CStep 1 400; CRet 1]) (seq 1 64) ++ [CCall 0 (OpIns 65 1) 40; CStep 0 6].
Definition insert_phaseb (l : list vis) : bool :=
  forallb (fun e => match e with
    | VCall _ (OpDel _ _) | VCall _ (OpCond _ _ _) => false
    | VCall _ (OpIns k v) => tries k v l <=? 1
    | _ => true end) l.
Lemma insert_phaseb_ok l : @insert_phaseb l = true ->
  (forall t o, In (VCall t o) l -> no_removal o) /\ forall k v, tries k v l <= 1.
Proof.
  unfold insert_phaseb. rewrite forallb_forall. intros H. split.
  - intros t o X. apply H in X. destruct o; simpl; auto; discriminate.
  - intros k v. destruct (tries k v l) eqn:E; [lia|]. rewrite <- E.
    assert (exists t, In (VCall t (OpIns k v)) l) as (t & X).
    { unfold tries in E. destruct (filter _ l) as [|e l'] eqn:F in E; [discriminate|].
      assert (X : In e (e :: l')) by (left; reflexivity). rewrite <- F in X. apply filter_In in X. destruct X as (X & Y).
      pose proof (H e X) as Z. destruct e as [t o|t o r]; [|discriminate].
      destruct o as [k' v'|k' v'|k' v' pred|k'|k'|k'|]; try discriminate.
      apply (only_true k v) in Y. destruct Y as (-> & ->). exists t. exact X. }
    apply H in X. apply Nat.leb_le. exact X.
Qed.
Example insert_phase_runs : let c := play insert_phase in
  insert_phaseb (visible (c_tr c)) && (length (adds (visible (c_tr c))) =? 128) &&
  match node_of (sm (c_s c)) 2 with Some (NLeaf (LSplit _ _ _ _)) => true | _ => false end &&
  existsb (fun e => match e with VRet _ (OpIns k v) _ => only 1064 2 k v | _ => false end) (visible (c_tr c)) = true.
Proof. vm_compute. reflexivity. Qed.
Example C58_insert_example : let c := play insert_phase in
  cexec c /\ contents (sm (c_s c)) 1064 2 /\
  forall t k v r, In (VRet t (OpIns k v) r) (visible (c_tr c)) -> r = RBool true.
Proof.
  pose proof insert_phase_runs as H. cbv zeta in *. assert (Hx : cexec (play insert_phase)) by apply play_exec.
  revert H Hx. generalize (play insert_phase). intros c H Hx.
  rewrite !andb_true_iff in H. destruct H as (((H1 & _) & _) & H4). apply insert_phaseb_ok in H1. destruct H1 as (H1 & H2).
  pose proof (@C58_insert_test natP _ _ _ Hx H1 H2) as G.
  split; [exact Hx|]. split; [|intros t k v r X; apply (G t k v r X)].
  apply existsb_exists in H4. destruct H4 as (e & X & Y).
  destruct e as [t o|t o r]; try discriminate Y. destruct o as [k v| | | | | |]; try discriminate Y.
  apply (@only_true natP 1064 2) in Y. destruct Y as (-> & ->). apply (G _ _ _ _ X).
Qed.

(** C58 is false for GetValue in general: key 66 is inserted by thread 3 only,
    and never deleted; while thread 0 is merging its page and thread 1 has
    inserted another key into it, GetValue of 66 by thread 3 finds nothing. *)
Definition lost_own : list cmd :=
  ins 1 65 ++ whole 3 (OpIns 66 1) ++ ins 67 70 ++ del 97 40 ++ [CCall 0 (OpDel 65 1) 40; CStep 0 15] ++
  whole 1 (OpIns 20 2) ++ whole 3 (OpGet 66).
Lemma lost_own_runs : let l := visible (c_tr (play lost_own)) in
  forallb (keyed 3 66) l &&
  match l with VRet 3 (OpGet k) (RVals []) :: l2 => (k =? 66) && own 66 1 l2 | _ => false end = true.
Proof. vm_compute. reflexivity. Qed.
Theorem C58_get_refuted : exists tr ss (s : sys) t k l1 vs l2 v,
  exec tr ss s /\ keeper t k (visible tr) /\
  visible tr = l1 ++ VRet t (OpGet k) (RVals vs) :: l2 /\ own k v l2 = true /\ ~ In v vs.
Proof.
  pose proof lost_own_runs as H. assert (Hx : cexec (play lost_own)) by apply play_exec.
  cbv zeta in *. revert H Hx. generalize (play lost_own). intros c H Hx.
  apply andb_true_iff in H. destruct H as (H1 & H2). apply keyed_ok in H1.
  destruct (visible (c_tr c)) as [|[t o|[|[|[|[|t]]]] o r] l] eqn:E; try discriminate H2.
  destruct o as [| | |k| | |]; try discriminate H2. destruct r as [| |[|x vs]|]; try discriminate H2.
  apply andb_true_iff in H2. destruct H2 as (H2 & H3). apply Nat.eqb_eq in H2. subst k.
  exists (c_tr c), (c_ss c), (c_s c), 3, 66, [], [], l, 1. split; [exact Hx|]. rewrite E.
  split; [exact H1|]. split; [reflexivity|]. split; [exact H3|]. intros [].
Qed.
Print Assumptions C58_get_refuted.
