(** C05, C08, C30, C39: memory safety of whole executions, any number of
    threads. *)
From Coq Require Import List Arith Lia Bool ZArith NArith.
From Verif Require Import Base Leaf LeafSpec LeafProofs LeafProofs2 Inner Tree TreeSpec TreeInv TreeLin TreeRun RoomSpec TreeRoom Inst PropsTree.
Import ListNotations.

(** C05, C30.  No operation ever writes beyond the end of a page or of a scratch
    array.  Partial: it is assumed that ConditionalInsert is not called on a
    pair on which Delete has been called (and Delete not while the
    ConditionalInsert runs); without this it is false, see
    [C05_execution_refuted]. *)
Theorem C05_no_overrun_partial : forall {P : Params} tr ss s t o e,
  exec tr ss s -> conds_fresh tr -> running s t = Some (o, Err e) -> e <> EOverrun.
Proof. intros P. exact fresh_no_overrun. Qed.
Print Assumptions C05_no_overrun_partial.

(** C05 (and C08).  In such executions every page can be rebuilt at any time; the
    new page has exactly the recorded number of pairs, in order and each one
    once, and they are the pairs stored in the index in the key range of the
    page. *)
Theorem C05_pages_exact_partial : forall {P : Params} tr ss s i c,
  exec tr ss s -> conds_fresh tr ->
  reach (sm s) i -> node_of (sm s) i = Some (NLeaf c) -> is_remove (NLeaf c) = false ->
  exists items,
    lconsolidate c = Ok (LBase (llow c) items (lhigh c)) /\
    lcount c = Z.of_nat (length items) /\ ascending items /\ NoDup items /\
    forall k v, In (k, v) items <-> in_range c k /\ contents (sm s) k v.
Proof.
  intros P tr ss s i c Hx Hf Hr Hn Hm. pose proof (fresh_leaf tr ss s i c Hx Hf Hr Hn Hm) as Hw.
  destruct (lconsolidate_spec c Hw) as (items & E & [[Ha _] Hd] & Hc & Hi). exists items.
  split; [exact E|]. split; [exact Hc|]. split; [exact Ha|]. split; [exact Hd|]. intros k v. rewrite Hi.
  destruct (exec_wok _ _ _ Hx) as (w & Ew & Hok). rewrite <- Ew in *.
  split; intros [H1 H2]; (split; [exact H1|]); apply (contents_leaf w i c k v Hok Hr Hn H1); exact H2.
Qed.
Print Assumptions C05_pages_exact_partial.

(** C39.  Whatever the calls, no operation ever follows an identifier without
    a page or a missing right neighbour, or takes a page of one kind for one
    of the other. *)
Theorem C39_no_null_page : forall {P : Params} tr ss s t o e,
  exec tr ss s -> running s t = Some (o, Err e) -> e <> ENull /\ e <> EKind.
Proof. intros P tr ss s t o e Hx Hr. eapply no_null_kind; eauto. Qed.
Print Assumptions C39_no_null_page.

(** * A concrete execution, keys and values natural numbers *)
#[local] Existing Instance natP.

Definition dels (k v : nat) (e : event) : bool :=
  match e with ECall _ (OpDel a b) => (a =? k) && (b =? v) | _ => false end.
Definition threads (tr : list event) : list nat := flat_map (fun e => match e with ECall t _ => [t] | _ => [] end) tr.
Definition fresh_now (tr : list event) : bool :=
  forallb (fun t => match current tr t with Some (OpCond k v _) => negb (existsb (dels k v) tr) | _ => true end) (threads tr).
Fixpoint freshb (tr : list event) : bool :=
  match tr with
  | [] => true
  | ECall _ _ :: tr' => fresh_now tr && freshb tr'
  | _ :: tr' => freshb tr'
  end.
Lemma current_threads tr t o : current tr t = Some o -> In t (threads tr).
Proof.
  unfold threads. induction tr as [|[u o'|u|u o' r] tr IH]; simpl; [discriminate| | |]; auto.
  - destruct (u =? t) eqn:E; auto. apply Nat.eqb_eq in E. auto.
  - destruct (u =? t); [discriminate|auto].
Qed.
Lemma fresh_now_ok tr t k v pred : fresh_now tr = true -> current tr t = Some (OpCond k v pred) -> ~ deleted tr k v.
Proof.
  intros H Hc (u & Hu). unfold fresh_now in H. rewrite forallb_forall in H. specialize (H t (current_threads _ _ _ Hc)). rewrite Hc in H.
  apply negb_true_iff in H. assert (existsb (dels k v) tr = true); [|congruence]. apply existsb_exists. eexists. split; [exact Hu|]. simpl. rewrite !Nat.eqb_refl. reflexivity.
Qed.
Lemma freshb_ok tr : freshb tr = true -> conds_fresh tr /\ forall t k v pred, current tr t = Some (OpCond k v pred) -> ~ deleted tr k v.
Proof.
  induction tr as [|e tr IH]; [split; [exact I|discriminate]|]. intros H.
  assert (Hold : forall k v, (forall u, e <> ECall u (OpDel k v)) -> deleted (e :: tr) k v -> deleted tr k v).
  { intros k v He (u & [Hu|Hu]); [exfalso; eapply He; eauto|exists u; exact Hu]. }
  assert (Hnow : forall t k v pred, current (e :: tr) t = Some (OpCond k v pred) -> ~ deleted (e :: tr) k v).
  { intros t k v pred Hc. destruct e as [u o|u|u o r].
    - simpl freshb in H. apply andb_true_iff in H as [H _]. eapply fresh_now_ok; eauto.
    - intros Hd. apply Hold in Hd; [|discriminate]. revert Hd. eapply (proj2 (IH H)). exact Hc.
    - intros Hd. apply Hold in Hd; [|discriminate]. revert Hd. simpl in Hc. destruct (u =? t); [discriminate|]. eapply (proj2 (IH H)). exact Hc. }
  split; [|exact Hnow]. split; [|exact Hnow]. apply IH. destruct e; auto. apply andb_true_iff in H. apply H.
Qed.

(** Thread 1 is in the middle of a ConditionalInsert into a page when thread 0
    splits that page and deletes pairs of it; afterwards the pair conditionally
    inserted is itself deleted, and the right half is being merged back. *)
Definition crowd : list cmd :=
  ins 1 127 ++ [CCall 1 (OpCond 70 9 (fun x => x =? 5)) 40; CStep 1 3] ++ ins 128 9 ++ del 110 20 ++ [CStep 1 400; CRet 1] ++
  whole 1 (OpDel 70 9) ++ del 90 20 ++ del 75 6 ++ [CCall 0 (OpDel 65 1) 40; CStep 0 15].
Definition crowd_seen (c : conf) : Prop :=
  freshb (c_tr c) = true /\
  existsb (fun e => match e with VRet 1 (OpCond 70 9 _) (RCond true false) => true | _ => false end) (visible (c_tr c)) = true /\
  match node_of (sm (c_s c)) 2 with
  | Some (NLeaf (LMerge mk i (LBase _ r _) (LBase _ l _) as c)) =>
      mk = 65 /\ i = 3 /\ length r = 26 /\ length l = 64 /\
      match lconsolidate c with Ok (LBase _ items _) => length items = 90 | _ => False end
  | _ => False
  end.
Example crowd_case : crowd_seen (play crowd).
Proof. vm_compute. repeat split. Qed.
Example crowd_fresh : conds_fresh (c_tr (play crowd)).
Proof. exact (proj1 (freshb_ok _ (proj1 crowd_case))). Qed.
Lemma first_page_exact c : cexec c -> conds_fresh (c_tr c) ->
  forall x, node_of (sm (c_s c)) 2 = Some (NLeaf x) -> is_remove (NLeaf x) = false ->
  exists items, lconsolidate x = Ok (LBase (llow x) items (lhigh x)) /\ NoDup items.
Proof.
  intros Hx Hf x Hn Hr. destruct (C05_pages_exact_partial _ _ _ 2 x Hx Hf (R_first _) Hn Hr) as (items & E & _ & _ & Hd & _). eauto.
Qed.
Lemma page_case c : cexec c -> conds_fresh (c_tr c) ->
  match node_of (sm (c_s c)) 2 with Some (NLeaf x) => is_remove (NLeaf x) = false | _ => False end ->
  exists x items, node_of (sm (c_s c)) 2 = Some (NLeaf x) /\ lconsolidate x = Ok (LBase (llow x) items (lhigh x)) /\ NoDup items.
Proof.
  intros Hx Hf. destruct (node_of (sm (c_s c)) 2) as [[x|x]|] eqn:E; intros H; try contradiction.
  destruct (first_page_exact c Hx Hf x E H) as (items & Ei & Hd). exists x, items. auto.
Qed.
Example crowd_page : exists c items, node_of (sm (c_s (play crowd))) 2 = Some (NLeaf c) /\
  lconsolidate c = Ok (LBase (llow c) items (lhigh c)) /\ NoDup items.
Proof. apply (page_case _ (play_exec crowd) crowd_fresh). vm_compute. reflexivity. Qed.
(** Operations do fail in such executions - here a GetValue wants to complete a
    split on a parent page it never recorded ([C04_refuted]) - but not as
    excluded above. *)
Definition lost : list cmd :=
  whole 1 (OpCond 3000 7 (fun _ => false)) ++ [CCall 1 (OpGet 2000) 40; CStep 1 2] ++ ins 1 191 ++ [CCall 0 (OpIns 193 1) 40; CStep 0 6; CStep 1 100].
Example lost_case : freshb (c_tr (play lost)) = true /\ running (c_s (play lost)) 1 = Some (OpGet 2000, Err EUninit).
Proof. vm_compute. auto. Qed.
(** The hypothesis rules out the overrun of [C05_execution_refuted]. *)
Example overrun_not_fresh : freshb (c_tr (play overrun)) = false.
Proof. vm_compute. reflexivity. Qed.
