(** C05-C10, C30, C34 and the page-level part of C03: leaf pages. *)
From Coq Require Import List Arith Lia Bool ZArith NArith Sorted.
From Verif Require Import Base SmallSet Bloom Leaf LeafSpec LeafProofs LeafProofs2 Inst.
Import ListNotations.

(** C07.  Rebuilding never fails; the new page stores exactly the logical
    content, ascending and without duplicates, and keeps range and neighbour. *)
Theorem C07_consolidate : forall {P : Params} (c : lchain), built c ->
  exists items, lconsolidate c = Ok (LBase (llow c) items (lhigh c)) /\
    ascending items /\ NoDup items /\
    (forall k v, In (k, v) items <-> in_range c k /\ lmem c k v).
Proof.
  intros P c Hb. destruct (lconsolidate_spec c (built_lwf c Hb)) as (items & E & ((Ha & _) & Hn) & _ & H).
  exists items. auto.
Qed.
Print Assumptions C07_consolidate.

(** C08.  The number of pairs written is the recorded item count. *)
Theorem C08_item_count : forall {P : Params} (c : lchain), built c ->
  exists items, lconsolidate c = Ok (LBase (llow c) items (lhigh c)) /\
    Z.of_nat (length items) = lcount c.
Proof.
  intros P c Hb. destruct (lconsolidate_spec c (built_lwf c Hb)) as (items & E & _ & H & _).
  exists items. auto.
Qed.
Print Assumptions C08_item_count.

(** C09.  Looking up a pair. *)
Theorem C09_lookup : forall {P : Params} (c : lchain) (k : K) (v : V), built c -> in_range c k ->
  exists b ix, lcheck k v c = Ok (b, ix) /\ (b = true <-> lmem c k v).
Proof.
  intros P c k v Hb Hr. destruct (lcheck_spec c k v (built_lwf c Hb) Hr) as (b & ix & E & H & _).
  exists b, ix. auto.
Qed.
Print Assumptions C09_lookup.

(** C09.  Collecting the values of a key, no data delta above a merge. *)
Theorem C09_values : forall {P : Params} (c : lchain) (k : K), built c -> clean c -> in_range c k ->
  exists r, lvalues k c = Ok r /\ NoDup r /\ forall v, In v r <-> lmem c k v.
Proof. intros P c k Hb. exact (lvalues_spec c k (built_lwf c Hb)). Qed.
Print Assumptions C09_values.

(** C06.  The decision of ConditionalInsert. *)
Theorem C06_conditional_insert : forall {P : Params} (pred : V -> bool) (c : lchain) (k : K) (v : V),
  built c -> in_range c k ->
  exists r, lcond pred k v c = Ok r /\
  match r with
  | CSatisfied => exists x, lmem c k x /\ pred x = true
  | CExists => lmem c k v
  | CAbsent _ => ~ lmem c k v /\ forall x, lmem c k x -> pred x = false
  end.
Proof.
  intros P pred c k v Hb Hr. destruct (lcond_spec pred c k v (built_lwf c Hb) Hr) as (r & E & H).
  exists r. split; auto. destruct r; tauto.
Qed.
Print Assumptions C06_conditional_insert.

(** C05, the part that holds: if the base page does not store the pair, the
    page after the conditional insert differs in exactly that pair, and every
    later rebuild has it exactly once. *)
Theorem C05_conditional_insert_partial : forall {P : Params} (pred : V -> bool) (c : lchain) (k : K) (v : V) ix,
  built c -> in_range c k -> lcond pred k v c = Ok (CAbsent ix) -> ~ stored c k v ->
  ~ lmem c k v /\
  exists items, lconsolidate (LIns k v ix c) = Ok (LBase (llow c) items (lhigh c)) /\
    NoDup items /\ In (k, v) items /\
    (forall k' v', (k', v') <> (k, v) -> (In (k', v') items <-> in_range c k' /\ lmem c k' v')).
Proof.
  intros P pred c k v ix Hb Hr E Hs. split.
  - destruct (C06_conditional_insert pred c k v Hb Hr) as (r & E' & H). rewrite E in E'. inversion E'; subst. tauto.
  - destruct (C07_consolidate (LIns k v ix c)) as (items & E' & _ & Hn & H); [eapply B_cins; eauto|].
    exists items. split; auto. split; auto. split.
    + apply H. simpl. auto.
    + intros k' v' Hne. rewrite H. simpl. unfold in_range. simpl.
      split; intros [H1 H2]; split; auto. destruct H2 as [[-> ->]|]; tauto.
Qed.
Print Assumptions C05_conditional_insert_partial.

(** C10.  Splitting a sorted page. *)
Theorem C10_split : forall {P : Params} low (items : list (K * V)) high,
  ascending items -> 4 <= length items ->
  exists r, lsplit_sibling (LBase low items high) = Ok r /\
  match r with
  | None => (* left alone: every cut leaving more than 32 pairs on both sides separates equal keys *)
      forall l r, items = l ++ r -> 32 < length l -> 32 < length r ->
      exists x y, In x l /\ In y r /\ fst x = fst y
  | Some s => exists l key v r,
      s = LBase (Some key) ((key, v) :: r) high /\ items = l ++ (key, v) :: r /\
      32 < length l /\ 32 < length ((key, v) :: r) /\
      (forall x y, In x l -> In y ((key, v) :: r) -> klt (fst x) (fst y) = true)
  end.
Proof. intros P. exact split_full. Qed.
Print Assumptions C10_split.

(** C34.  A page with a single key is never split; C07-C09 apply to it. *)
Theorem C34_single_key_page : forall {P : Params} low (items : list (K * V)) high k,
  (forall x, In x items -> fst x = k) -> 4 <= length items ->
  lsplit_sibling (LBase low items high) = Ok None.
Proof. intros P. exact single_key_unsplit. Qed.
Print Assumptions C34_single_key_page.
Theorem C34_single_key_exact : forall {P : Params} (c : lchain) (k : K), built c -> in_range c k ->
  (forall k' v, lmem c k' v -> k' = k) ->
  (forall v, exists b ix, lcheck k v c = Ok (b, ix) /\ (b = true <-> lmem c k v)) /\
  (clean c -> exists r, lvalues k c = Ok r /\ NoDup r /\ forall v, In v r <-> lmem c k v) /\
  (exists vs, lconsolidate c = Ok (LBase (llow c) (map (pair k) vs) (lhigh c)) /\
     NoDup vs /\ forall v, In v vs <-> lmem c k v).
Proof.
  intros P c k Hb Hr Hk. split; [|split].
  - intros v. apply C09_lookup; auto.
  - intros Hc. apply C09_values; auto.
  - destruct (C07_consolidate c Hb) as (items & E & _ & Hn & H). exists (map snd items).
    assert (Hi : map (pair k) (map snd items) = items).
    { rewrite map_map. rewrite <- (map_id items) at 2. apply map_ext_in. intros [k' v] Hin. simpl.
      apply H in Hin as [_ Hin]. apply Hk in Hin. subst; auto. }
    rewrite Hi. split; auto. split.
    + rewrite <- Hi in Hn. eapply NoDup_map_inv; eauto.
    + intros v. rewrite in_map_iff. split.
      * intros ([k' v'] & <- & Hin). apply H in Hin as [_ Hin]. simpl. rewrite <- (Hk k' v') by auto. auto.
      * intros Hm. exists (k, v). split; auto. apply H. auto.
Qed.
Print Assumptions C34_single_key_exact.

(** C30.  The scratch arrays have room: collecting values never overruns them
    on any chain at all; the predicate version and the rebuild complete
    without any error on every page. *)
Theorem C30_leaf_scratch : forall {P : Params},
  (forall c k, lvalues k c <> Er EOverrun) /\
  (forall pred c k v, built c -> in_range c k -> lcond pred k v c <> Er EOverrun) /\
  (forall c, built c -> lconsolidate c <> Er EOverrun).
Proof.
  intros P. split; [intros; apply lvalues_room|]. split.
  - intros pred c k v Hb Hr. destruct (C06_conditional_insert pred c k v Hb Hr) as (r & -> & _). discriminate.
  - intros c Hb. destruct (C07_consolidate c Hb) as (r & -> & _). discriminate.
Qed.
Print Assumptions C30_leaf_scratch.

(** * Concrete pages *)
#[local] Existing Instance natP.
Definition oI (k v : nat) : lop := OIns (P := natP) k v.
Definition oD (k v : nat) : lop := ODel (P := natP) k v.
Definition pg0 : lchain := LBase None [] None.
Definition fillops (n : nat) : list (lop) := map (fun i => oI i (i + 100)) (seq 0 n).
(** Seventy pairs, rebuilt; its two halves after a split. *)
Definition pg70 : lchain := match lrun pg0 (fillops 70 ++ [OCons]) with Some c => c | None => pg0 end.
Definition pgL : lchain := match lrun pg70 [OSplit 7; OCons] with Some c => c | None => pg0 end.
Definition pgR : lchain := match lrun pg70 [OSibling] with Some c => c | None => pg0 end.
Definition pgM : lchain := LMerge 35 7 pgR pgL.
Definition pgM2 : lchain := match lrun pgM [oI 20 7; oD 40 140; oI 40 141] with Some c => c | None => pg0 end.
Lemma built70 : built pg70.
Proof. apply (lrun_built (fillops 70 ++ [OCons]) pg0); [apply B_init|vm_compute; reflexivity]. Qed.
Lemma builtL : built pgL.
Proof. apply (lrun_built [OSplit 7; OCons] pg70); [apply built70|vm_compute; reflexivity]. Qed.
Lemma builtR : built pgR.
Proof. apply (lrun_built [OSibling] pg70); [apply built70|vm_compute; reflexivity]. Qed.
Lemma builtM : built pgM.
Proof. apply B_merge; [apply builtL|apply builtR|vm_compute; reflexivity|vm_compute; reflexivity]. Qed.
Lemma builtM2 : built pgM2.
Proof. apply (lrun_built [oI 20 7; oD 40 140; oI 40 141] pgM); [apply builtM|vm_compute; reflexivity]. Qed.

Lemma in_rangeM2 : in_range pgM2 40.
Proof. vm_compute; auto. Qed.

(** A merged page with pending updates on both sides: the hypotheses of C06-C09. *)
Example leaf_example :
  built pgM2 /\ in_range pgM2 40 /\ ldepth pgM2 = 3 /\ lcount pgM2 = 71%Z /\
  lcheck 40 140 pgM2 = Ok (false, (5, true)) /\ lcheck 40 141 pgM2 = Ok (true, (6, false)) /\
  (exists items, lconsolidate pgM2 = Ok (LBase None items None) /\ length items = 71 /\
     nth_error items 21 = Some (20, 7) /\ nth_error items 41 = Some (40, 141)) /\
  lcond (fun v => v =? 141) 40 5 pgM2 = Ok CSatisfied /\
  lcond (fun v => v =? 140) 40 5 pgM2 = Ok (CAbsent (6, false)) /\
  ~ lmem pgM2 40 5 /\ ~ stored pgM2 40 5.
Proof.
  split; [apply builtM2|]. split; [vm_compute; auto|]. split; [vm_compute; auto|]. split; [vm_compute; auto|].
  split; [vm_compute; auto|]. split; [vm_compute; auto|]. split.
  { eexists; split; [vm_compute; reflexivity|vm_compute; auto]. }
  split; [vm_compute; auto|]. split; [vm_compute; auto|].
  split.
  - destruct (C09_lookup pgM2 40 5 builtM2 in_rangeM2) as (b & ix & E & H). rewrite <- H.
    vm_compute in E. inversion E; discriminate.
  - vm_compute. intros H. repeat destruct H as [H|H]; try discriminate; auto.
Qed.
Example leaf_clean_example :
  exists c, lrun pgL [oI 20 7; oD 3 103] = Some c /\ built c /\ clean c /\ in_range c 20 /\
  lvalues 20 c = Ok [7; 120] /\ lvalues 3 c = Ok [].
Proof.
  destruct (lrun pgL [oI 20 7; oD 3 103]) as [c|] eqn:E; [|vm_compute in E; discriminate].
  exists c. split; auto. split; [apply (lrun_built _ _ _ builtL E)|].
  vm_compute in E. inversion E; subst c. vm_compute. auto.
Qed.
Example split_example :
  lsplit_sibling pg70 = Ok (Some pgR) /\ llow pgR = Some 35 /\ lcount pgR = 35%Z /\
  lsplit_sibling (LBase None (map (fun i => (1, i)) (seq 0 200)) None) = Ok None.
Proof. vm_compute. auto. Qed.

(** C03 at page level: on a merged page with a data update above the merge,
    collecting values misses a stored value, although looking up the pair
    finds it; or the search window is not even inside the base page. *)
Definition pgM3 : lchain := match lrun pgM [oI 20 7] with Some c => c | None => pg0 end.
Lemma builtM3 : built pgM3.
Proof. apply (lrun_built [oI 20 7] pgM); [apply builtM|vm_compute; reflexivity]. Qed.
Theorem C03_values_above_merge_refuted :
  (exists (c : lchain) k v ix,
     built c /\ in_range c k /\ lmem c k v /\ lcheck k v c = Ok (true, ix) /\ lvalues k c = Ok []) /\
  (exists (c : lchain) k, built c /\ in_range c k /\ lvalues k c = Er ERange).
Proof.
  split.
  - assert (Hr : in_range pgM3 36) by (vm_compute; auto).
    exists pgM3, 36, 136, (1, true). split; [apply builtM3|]. split; auto.
    split; [|split; vm_compute; reflexivity].
    destruct (C09_lookup pgM3 36 136 builtM3 Hr) as (b & ix & E & H).
    apply H. vm_compute in E. inversion E; auto.
  - exists pgM2, 36. split; [apply builtM2|]. split; [vm_compute; auto|vm_compute; reflexivity].
Qed.
Print Assumptions C03_values_above_merge_refuted.

(** C05.  A conditional insert after a pending delete of a pair of the base
    page: the pair is absent, the insert is accepted, and the next rebuild of
    the page writes beyond the end of the new page. *)
Theorem C05_refuted : exists (c : lchain) (k v : nat) (pred : nat -> bool) ix,
  built c /\ in_range c k /\ lcond pred k v c = Ok (CAbsent ix) /\ ~ lmem c k v /\
  lconsolidate (LIns k v ix c) = Er EOverrun.
Proof.
  pose (o := lrun (LBase None [] None) [oI 1 1; OCons; oD 1 1]).
  destruct o as [c|] eqn:E; [|vm_compute in E; discriminate].
  exists c, 1, 1, (fun _ => false), (1, false).
  split; [eapply lrun_built; [apply B_init|exact E]|].
  vm_compute in E. inversion E; subst c. clear.
  split; [vm_compute; auto|]. split; [vm_compute; auto|]. split; [|vm_compute; auto].
  simpl. tauto.
Qed.
Print Assumptions C05_refuted.

