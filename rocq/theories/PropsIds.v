(** C24, C25: page identifiers. *)
From Coq Require Import List NArith Lia.
From Verif Require Import Ids IdsProofs.
Import ListNotations.
Open Scope N_scope.

(** C24.  In every interleaving of any number of threads, all identifiers handed
    out (after construction, which takes 1 and 2) are pairwise distinct, and
    none is 0; those handed out later differ from 1 and 2 as the complete list
    [given] has no duplicates and starts with them. *)
Theorem C24_unique : forall acts,
  NoDup (given (run init acts)) /\ ~ In 0 (given (run init acts)) /\
  exists later, given (run init acts) = later ++ [2; 1] /\ ~ In 1 later /\ ~ In 2 later.
Proof.
  intros acts. destruct (ids_unique acts) as [H1 H2]. split; auto. split; auto.
  destruct (ids_split [] acts) as (new & E). exists new.
  change (given (run init [])) with [2; 1] in E. change (run init []) with init in E.
  split; auto. rewrite E in H1. split; intros Hin.
  - apply NoDup_remove_2 with (l := new ++ [2]) (l' := []) (a := 1).
    + rewrite <- app_assoc. auto.
    + rewrite app_nil_r. apply in_app_iff; auto.
  - apply NoDup_remove_2 in H1. apply H1. apply in_app_iff; auto.
Qed.
Print Assumptions C24_unique.
Example C24_example :
  given (run init [ACall 1%nat; ACall 2%nat; AStep 1%nat; AStep 2%nat; AStep 2%nat; AInval 3; ACall 3%nat;
                   AStep 3%nat; AStep 1%nat; AStep 3%nat]) = [5; 4; 3; 2; 1].
Proof. reflexivity. Qed.

(** C25 is false: an identifier that was handed out is never handed out again,
    even after it was given back... *)
Theorem C25_refuted : forall acts1 acts2 i, In i (given (run init acts1)) ->
  exists later, given (run (run init acts1) acts2) = later ++ given (run init acts1) /\ ~ In i later.
Proof.
  intros acts1 acts2 i Hin. destruct (ids_split acts1 acts2) as (new & E). exists new. split; auto.
  intros Hn. destruct (ids_unique (acts1 ++ acts2)) as [H _]. unfold run in *. rewrite fold_left_app in H.
  rewrite E in H. apply in_split in Hin as (l1 & l2 & E2). rewrite E2, app_assoc in H.
  apply NoDup_remove_2 in H. apply H. rewrite !in_app_iff. auto.
Qed.
Print Assumptions C25_refuted.

(** ... so taking and returning a single identifier again and again eventually
    yields one that lies outside a page table of any given size. *)
Theorem C25_exhaustion_refuted : forall table_size : N,
  exists acts i, In i (given (run init acts)) /\ table_size <= i /\
  (forall k, In k (given (run init acts)) -> k <> i -> k = 1 \/ k = 2 \/ In (AInval k) acts).
Proof.
  intros T. set (n := N.to_nat T).
  assert (Hr : forall m i k, i <= k < i + N.of_nat m -> In (AInval k) (rounds i m)).
  { induction m as [|m IH]; intros i k Hk; [lia|]. cbn [rounds]. apply in_app_iff.
    destruct (N.eq_dec i k) as [->|Hn]; [left; simpl; auto|right; apply IH; lia]. }
  destruct (rounds_next (S n) init inv_init eq_refl) as (A & B & (_ & _ & C & _)).
  change (next init) with 3 in *.
  exists (rounds 3 (S n)), (3 + N.of_nat n). split; [|split].
  - apply C. lia.
  - unfold n. lia.
  - intros k Hk Hne. apply C in Hk. rewrite A in Hk.
    assert (k = 1 \/ k = 2 \/ 3 <= k) as [|[|]] by lia; auto. right; right. apply Hr. lia.
Qed.
Print Assumptions C25_exhaustion_refuted.
