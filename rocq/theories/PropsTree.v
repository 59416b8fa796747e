(** C01, C03, C04, C05, C35: whole executions of the index, any number of
    threads. *)
From Coq Require Import List Arith Lia Bool ZArith NArith.
From Verif Require Import Base Leaf LeafSpec Inner Tree TreeSpec TreeInv TreeLin TreeRun TreeNot Inst.
Import ListNotations.

(** C01.  Every execution of Insert, Delete, ConditionalInsert, GetValue and
    the iterators' page fetches is explained by atomic steps on a set of
    pairs, which at the end is the stored set.  (Values returned by GetValue
    are left open here, see C03.) *)
Theorem C01_linearizable : forall {P : Params} tr ss s,
  exec tr ss s -> linearizable false tr (sm s).
Proof. intros P tr ss s H. apply (linearizable_ok false tr ss s H). discriminate. Qed.
Print Assumptions C01_linearizable.

(** C35.  A step that changes the stored set is the last step of an operation
    that is about to return, and has exactly the effect of that operation;
    all other steps - splits, merges, removals, rebuilds, new roots - leave
    the stored set as it is. *)
Theorem C35_restructuring_invisible : forall {P : Params} tr ss s t o p s',
  exec tr ss s -> running s t = Some (o, p) -> sstep s (EStep t) s' ->
  same (contents (sm s)) (contents (sm s')) \/
  exists r, running s' t = Some (o, Ret r) /\
    forall full, effect full o (contents (sm s)) (contents (sm s')) r.
Proof. intros P. apply step_spec_ok. Qed.
Print Assumptions C35_restructuring_invisible.

(** C03.  GetValue is exact, too, in executions in which the pages of the keys
    asked for never have a data update above an unconsolidated merge.  The full statement (without
    the condition) is false, see [C03_refuted] below. *)
Theorem C03_get_linearizable_partial : forall {P : Params} tr ss s,
  exec tr ss s -> (forall s' t k, In s' ss -> In (ECall t (OpGet k)) tr -> page_clean (sm s') k) -> linearizable true tr (sm s).
Proof.
  intros P tr ss s H Hc. apply (linearizable_at true tr ss s H). intros _ s' t o Hs Ho. destruct o; simpl; auto. eapply Hc; eauto.
Qed.
Print Assumptions C03_get_linearizable_partial.

(** * Concrete executions, keys and values natural numbers *)
#[local] Existing Instance natP.

Definition ins (a n : nat) : list cmd := flat_map (fun i => whole 0 (OpIns i 1)) (seq a n).
Definition del (a n : nat) : list cmd := flat_map (fun i => whole 0 (OpDel i 1)) (seq a n).

(** Thread 0 fills the first page; its 129th Insert has just posted the split
    of the page when thread 1 inserts the same pair, completing the split, and
    deletes another one; thread 2 reads in between; then thread 0 goes on. *)
Definition race : list cmd :=
  ins 1 128 ++ [CCall 0 (OpIns 129 1) 40; CStep 0 6; CCall 2 (OpGet 129) 40; CStep 2 2] ++
  whole 1 (OpIns 129 1) ++ whole 1 (OpDel 100 1) ++ [CStep 2 100; CRet 2; CStep 0 400; CRet 0].
Example race_exec : let c := play race in
  cexec c /\
  firstn 8 (visible (c_tr c)) =
    [VRet 0 (OpIns 129 1) (RBool false); VRet 2 (OpGet 129) (RVals [1]);
     VRet 1 (OpDel 100 1) (RBool true); VCall 1 (OpDel 100 1);
     VRet 1 (OpIns 129 1) (RBool true); VCall 1 (OpIns 129 1);
     VCall 2 (OpGet 129); VCall 0 (OpIns 129 1)] /\
  nid (sm (c_s c)) = 4.
Proof. split; [apply play_exec|]. vm_compute. auto. Qed.

(** The split itself is a step as in C35. *)
Example race_split : let c := play (ins 1 128 ++ [CCall 0 (OpIns 129 1) 40; CStep 0 5]) in
  let c' := steps 1 0 c in
  cexec c /\ option_map fst (running (c_s c) 0) = Some (OpIns 129 1) /\ sstep (c_s c) (EStep 0) (c_s c') /\
  (match node_of (sm (c_s c)) 2, node_of (sm (c_s c')) 2 with
   | Some (NLeaf (LBase _ _ _)), Some (NLeaf (LSplit k i n _)) => (k, i, n)
   | _, _ => (0, 0, 0) end) = (65, 3, 64).
Proof.
  split; [apply play_exec|]. split; [vm_compute; reflexivity|]. split; [|vm_compute; reflexivity].
  apply can_step_ok. vm_compute. reflexivity.
Qed.

(** All states of the race are clean, so C03 applies to it. *)
Definition no_mergeb := fix f (c : lchain) : bool :=
  match c with
  | LBase _ _ _ => true
  | LIns _ _ _ c | LDel _ _ _ c | LSplit _ _ _ c | LRemove _ c => f c
  | LMerge _ _ _ _ => false
  end.
Definition cleanb := fix f (c : lchain) : bool :=
  match c with
  | LBase _ _ _ => true
  | LIns _ _ _ c | LDel _ _ _ c => no_mergeb c
  | LSplit _ _ _ c | LRemove _ c => f c
  | LMerge _ _ r c => f r && f c
  end.
Lemma no_mergeb_ok c : no_mergeb c = true -> no_merge c.
Proof. induction c; simpl; auto; discriminate. Qed.
Lemma cleanb_ok c : cleanb c = true -> clean c.
Proof.
  induction c; simpl; auto using no_mergeb_ok.
  rewrite andb_true_iff. intros (A & B). auto.
Qed.
Definition leaves_cleanb (m : mem) : bool :=
  forallb (fun i => match node_of m i with Some (NLeaf c) => cleanb c | _ => true end) (seq 0 (nid m)).
Lemma leaves_cleanb_ok m : mbound m -> leaves_cleanb m = true -> leaves_clean m.
Proof.
  intros Hb H i c _ E. unfold leaves_cleanb in H. rewrite forallb_forall in H.
  destruct (node_of_get m i (NLeaf c)) as (G & _). destruct (G E) as (p & Ep). apply get_tab in Ep.
  destruct (b_tab m Hb _ _ (proj1 Ep)) as (Hi & _).
  specialize (H i). rewrite E in H. apply cleanb_ok, H, in_seq. lia.
Qed.
Lemma exec_states {Q : Params} tr ss (s : @sys Q) : exec tr ss s -> forall s', In s' ss -> exists tr' ss', exec tr' ss' s'.
Proof.
  induction 1 as [|tr ss s e s' H IH Hs]; intros x [<-|Hx].
  - exists [], [sinit]. constructor.
  - destruct Hx.
  - exists (e :: tr), (s' :: ss). econstructor; eauto.
  - apply IH, Hx.
Qed.
Lemma all_cleanb_ok tr ss s : exec tr ss s -> forallb (fun s => leaves_cleanb (sm s)) ss = true ->
  forall s', In s' ss -> leaves_clean (sm s').
Proof.
  intros Hx H s' Hs. rewrite forallb_forall in H.
  destruct (exec_states _ _ _ Hx _ Hs) as (tr' & ss' & Hx'). destruct (exec_wok _ _ _ Hx') as (w & E & Hw).
  apply leaves_cleanb_ok; [rewrite <- E; apply Hw|]. apply H, Hs.
Qed.
Example race_clean : let c := play race in
  forallb (fun s => leaves_cleanb (sm s)) (c_ss c) = true /\ (500 <=? length (c_ss c)) = true.
Proof. vm_compute. auto. Qed.
Example race_get : let c := play race in linearizable true (c_tr c) (sm (c_s c)).
Proof.
  apply (C03_get_linearizable_partial _ _ _ (play_exec race)). intros s' t k Hs _. apply (clean_exact (sm s') (OpGet k)).
  apply (all_cleanb_ok _ _ _ (play_exec race)); [apply race_clean|exact Hs].
Qed.

(** C03 is false in general.  Thread 0 merges a page into its left neighbour
    and has posted the update of the parent, but not yet rebuilt the merged
    page, when thread 1 inserts into that page; then GetValue of a key whose
    Insert returned long ago, and which nobody ever deletes, returns nothing
    (or searches outside of the page). *)
Definition half_merged : list cmd :=
  ins 1 136 ++ del 97 40 ++ [CCall 0 (OpDel 65 1) 40; CStep 0 15].
Definition not_del (k v : nat) (x : vis) : bool :=
  match x with VCall _ (OpDel a b) => negb ((a =? k) && (b =? v)) | _ => true end.
Definition not_by (t : nat) (x : vis) : bool := match x with VCall u _ => negb (u =? t) | _ => true end.
Lemma not_del_ok k v l : forallb (not_del k v) l = true -> forall w, ~ In (VCall w (OpDel k v)) l.
Proof.
  intros H w Hw. rewrite forallb_forall in H. apply H in Hw. simpl in Hw. rewrite !Nat.eqb_refl in Hw. discriminate.
Qed.
Lemma not_by_ok t l : forallb (not_by t) l = true -> forall o, ~ In (VCall t o) l.
Proof.
  intros H w Hw. rewrite forallb_forall in H. apply H in Hw. simpl in Hw. rewrite !Nat.eqb_refl in Hw. discriminate.
Qed.
Theorem C03_refuted :
  (exists tr ss (s : sys), exec tr ss s /\ ~ linearizable true tr (sm s)) /\
  (exists tr ss (s : sys) t k, exec tr ss s /\ running s t = Some (OpGet k, Err ERange)).
Proof.
  split.
  - set (l := (half_merged ++ whole 1 (@OpIns natP 20 2) ++ whole 2 (@OpGet natP 66)) : list cmd).
    exists (c_tr (play l)), (c_ss (play l)), (c_s (play l)). split; [apply play_exec|].
    apply (@stale_get natP 66 1 2 0 (skipn 2 (visible (c_tr (play l))))).
    + vm_compute. reflexivity.
    + apply (nth_error_In _ 223). vm_compute. reflexivity.
    + apply not_del_ok. vm_compute. reflexivity.
    + apply not_by_ok. vm_compute. reflexivity.
  - set (l := (half_merged ++ whole 1 (@OpIns natP 60 2) ++ [CCall 2 (@OpGet natP 66) 40; CStep 2 100]) : list cmd).
    exists (c_tr (play l)), (c_ss (play l)), (c_s (play l)), 2, 66. split; [apply play_exec|].
    vm_compute. reflexivity.
Qed.
Print Assumptions C03_refuted.

(** C04 is false.  A GetValue has read the root; meanwhile thread 0 splits the
    page it is heading for and then begins to split the right half.  GetValue
    follows the link to the right half, finds the unfinished split, and wants
    to complete it on a parent page that it has never recorded. *)
Theorem C04_refuted : exists tr ss (s : sys) t k,
  exec tr ss s /\ running s t = Some (OpGet k, Err EUninit).
Proof.
  set (l := ([CCall 1 (@OpGet natP 1000) 40; CStep 1 2] ++ ins 1 192 ++ [CCall 0 (@OpIns natP 193 1) 40; CStep 0 6; CStep 1 100]) : list cmd).
  exists (c_tr (play l)), (c_ss (play l)), (c_s (play l)), 1, 1000. split; [apply play_exec|].
  vm_compute. reflexivity.
Qed.
Print Assumptions C04_refuted.

(** C05 is false of whole executions, even single-threaded ones: a pair is
    deleted and conditionally inserted again, both with success, and a later
    Insert of an unrelated pair writes beyond the end of the new page. *)
Definition overrun : list cmd :=
  ins 1 9 ++ whole 0 (OpDel 1 1) ++ whole 0 (OpCond 1 1 (fun _ => false)) ++ ins 10 20.
Theorem C05_execution_refuted : exists tr ss (s : sys) k v,
  exec tr ss s /\
  (forall e, In e (visible tr) -> match e with VCall t _ | VRet t _ _ => t = 0 end) /\
  In (VRet 0 (OpCond 1 1 (fun _ => false)) (RCond true false)) (visible tr) /\
  running s 0 = Some (OpIns k v, Err EOverrun).
Proof.
  exists (c_tr (play overrun)), (c_ss (play overrun)), (c_s (play overrun)), 15, 1.
  split; [apply play_exec|]. split; [|split].
  - assert (E : forallb (fun e => match e with VCall t _ | VRet t _ _ => t =? 0 end) (visible (c_tr (play overrun))) = true)
      by (vm_compute; reflexivity).
    rewrite forallb_forall in E. intros e He. apply E in He. destruct e; apply Nat.eqb_eq; auto.
  - apply (nth_error_In _ 11). vm_compute. reflexivity.
  - vm_compute. reflexivity.
Qed.
Print Assumptions C05_execution_refuted.
