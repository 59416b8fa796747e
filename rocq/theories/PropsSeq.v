(** Single-threaded use of the index (C02). *)
From Coq Require Import List Arith Bool.
From Verif Require Import Base Inst Leaf LeafSpec Inner Tree TreeSpec SeqOps SeqRun SeqPlay.
Import ListNotations.

(** C02.  After any calls of Insert, Delete, ConditionalInsert, GetValue (and
    forward page fetches) on a fresh index, the next such call returns - all
    large enough bounds on the retries give the same outcome, which is no
    failure - with exactly the result and the effect of that call on the
    stored set.
    Partial: GetValue calls are made in states in which no unfinished page
    split has a right half that is itself due to be split, and no pair is
    conditionally inserted that was the argument of a Delete before (without
    this the claim is false, see C05_execution_refuted). *)
Theorem C02_sequential_set_partial : forall {P : Params} l m o,
  calmrun l m -> plain o -> need l m o ->
  exists fuel0 m' r,
    (forall fuel, fuel0 <= fuel -> prun m (code fuel o) = (m', Ok r)) /\
    effect true o (contents m) (contents m') r.
Proof. intros P. exact seq_set. Qed.
Print Assumptions C02_sequential_set_partial.

(** C02 without GetValue: no restriction on the states. *)
Definition update {P : Params} (o : op) : Prop := match o with OpGet _ | OpPageBI _ => False | _ => True end.
Fixpoint fresh_conds {P : Params} (l : list (op * resp)) : Prop :=
  match l with
  | [] => True
  | (OpCond k v _, _) :: l => ~ In (OpDel k v) (map fst l) /\ fresh_conds l
  | _ :: l => fresh_conds l
  end.
Theorem C02_sequential_updates : forall {P : Params} l m o,
  seqrun l m -> Forall (fun x => update (fst x)) l -> fresh_conds l -> update o ->
  (forall k v pred, o = OpCond k v pred -> ~ In (OpDel k v) (map fst l)) ->
  exists fuel0 m' r,
    (forall fuel, fuel0 <= fuel -> prun m (code fuel o) = (m', Ok r)) /\
    effect true o (contents m) (contents m') r.
Proof.
  intros P l m o Hq Hl Hc Ho Hf. apply (seq_set l).
  - clear Ho Hf. revert Hl Hc. induction Hq as [|l m fuel o' m' r Hq IH E]; intros Hl Hc; [constructor|]. inversion Hl as [|? ? H1 H2]; subst. simpl in H1.
    econstructor; [apply IH; auto| | |exact E]; destruct o'; try destruct H1; try exact I; simpl in Hc; try exact Hc; apply Hc.
  - destruct o; try destruct Ho; exact I.
  - destruct o; try destruct Ho; try exact I. simpl. eapply Hf. reflexivity.
Qed.
Print Assumptions C02_sequential_updates.

(** The fresh index is empty. *)
Theorem C02_fresh : forall {P : Params} k v, ~ contents minit k v.
Proof. intros P. exact TreeInv.contents_init. Qed.
Print Assumptions C02_fresh.

(** A history with page splits, removals and merges. *)
#[local] Existing Instance natP.
Definition busy : list op :=
  map (fun i => OpIns i 1) (seq 1 200) ++ [OpGet 77; OpIns 77 1; OpIns 77 2; OpGet 77] ++
  map (fun i => OpDel i 1) (seq 90 60) ++ [OpGet 100; OpDel 100 1; OpPage 100; OpGet 150;
   OpCond 150 7 (fun x => x =? 1); OpCond 150 7 (fun x => x =? 2); OpCond 150 7 (fun x => x =? 3); OpGet 150].
Definition page_keys (r : resp) : list nat := match r with RPage _ items _ => map fst items | _ => [] end.
Definition busy_seen (x : list (op * resp) * mem) : Prop :=
  let l := fst x in
  calm_b (snd x) = true /\ nid (snd x) = 5 /\
  map snd (firstn 5 l) = [RVals [7; 1]; RCond false false; RCond true false; RCond false true; RVals [1]] /\
  page_keys (nth 5 (map snd l) (RBool true)) = seq 1 77 ++ seq 77 13 /\
  firstn 2 (skipn 6 l) = [(OpDel 100 1, RBool false); (OpGet 100, RVals [])] /\
  firstn 4 (skipn 68 l) = [(OpGet 77, RVals [2; 1]); (OpIns 77 2, RBool true); (OpIns 77 1, RBool false); (OpGet 77, RVals [1])].
Example busy_runs : exists x, calmrun (fst x) (snd x) /\ calm (snd x) /\ busy_seen x.
Proof.
  assert (E : match run_calm 60 busy [] minit with Some x => busy_seen x | None => False end) by (vm_compute; auto 10).
  destruct (run_calm 60 busy [] minit) as [[l m]|] eqn:Er; [|destruct E]. exists (l, m).
  assert (Hq : calmrun l m) by (apply (run_calm_ok 60 busy [] minit); [constructor|exact Er]). split; auto. split; auto.
  destruct (calmrun_ready _ _ Hq) as (lev & H & R). apply calm_b_ok; [apply R|apply E].
Qed.
