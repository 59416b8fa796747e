(** Proofs about identifier allocation (Ids.v). *)
From Coq Require Import List NArith Lia Bool.
From Verif Require Import Epoch EpochProofs Ids.
Import ListNotations.
Open Scope N_scope.

Definition inv (s : st) : Prop :=
  free s = [] /\ NoDup (given s) /\ (forall i, In i (given s) <-> 1 <= i < next s) /\
  N.of_nat (length (given s)) + 1 = next s.

Lemma inv_ext s s' : inv s -> free s' = free s -> next s' = next s -> given s' = given s -> inv s'.
Proof. unfold inv. intros H -> -> ->. auto. Qed.

Lemma inv_step s a : inv s -> inv (step s a).
Proof.
  intros HI. pose proof HI as (H1 & H2 & H3 & H4). destruct a as [t|t|i]; simpl; auto.
  - destruct (pcs s t); auto; eapply inv_ext; eauto.
  - destruct (pcs s t); auto.
    + rewrite H1. apply (inv_ext s); auto.
    + split; [|split; [|split]]; simpl; auto.
      * constructor; auto. rewrite H3. lia.
      * intros i. rewrite H3. lia.
      * lia.
Qed.

Lemma inv_run l : forall s, inv s -> inv (run s l).
Proof. induction l as [|a l IH]; simpl; auto. intros s H. apply IH. apply inv_step; auto. Qed.

Lemma inv_init : inv init.
Proof.
  unfold init. apply inv_run. split; [|split; [|split]]; simpl; auto.
  - constructor.
  - intros i. lia.
Qed.

Lemma ids_unique acts : NoDup (given (run init acts)) /\ ~ In 0 (given (run init acts)).
Proof.
  pose proof (inv_run acts _ inv_init) as (H1 & H2 & H3 & H4). split; auto. rewrite H3. lia.
Qed.

Lemma ids_split acts1 acts2 :
  exists new, given (run (run init acts1) acts2) = new ++ given (run init acts1).
Proof.
  revert acts1. enough (G : forall s, exists new, given (run s acts2) = new ++ given s) by (intros; apply G).
  induction acts2 as [|a l IH]; intros s; simpl; [exists []; auto|].
  destruct (IH (step s a)) as (n1 & E). rewrite E.
  assert (exists n2, given (step s a) = n2 ++ given s) as (n2 & ->).
  { destruct a as [t|t|i]; simpl.
    - destruct (pcs s t); exists []; auto.
    - destruct (pcs s t); [exists []; auto| |exists [next s]; auto].
      destruct (free s) as [|i r]; [exists []; auto|exists [i]; auto].
    - exists []; auto. }
  exists (n1 ++ n2). apply app_assoc.
Qed.

(** One identifier is taken and given back at a time, [n] times. *)
Definition round (i : N) : list act := [ACall 0; AStep 0; AStep 0; AInval i].
Fixpoint rounds (i : N) (n : nat) : list act :=
  match n with O => [] | S n => round i ++ rounds (i + 1) n end.

Lemma rounds_next n : forall s, inv s -> pcs s 0%nat = PIdle ->
  next (run s (rounds (next s) n)) = next s + N.of_nat n /\ pcs (run s (rounds (next s) n)) 0%nat = PIdle /\
  inv (run s (rounds (next s) n)).
Proof.
  induction n as [|n IH]; intros s HI Hp.
  - simpl. split; [lia|auto].
  - cbn [rounds]. unfold run. rewrite fold_left_app. fold (run s (round (next s))).
    assert (E : next (run s (round (next s))) = next s + 1 /\ pcs (run s (round (next s))) 0%nat = PIdle).
    { unfold round, run. cbn [fold_left step]. rewrite Hp. cbn [set_pc pcs]. rewrite upd_same.
      cbn [set_pc free]. destruct HI as (-> & _). cbn [pcs set_pc]. rewrite upd_same. cbn [next set_pc pcs].
      rewrite upd_same. auto. }
    destruct E as [E1 E2].
    assert (HI' : inv (run s (round (next s)))) by (apply inv_run; auto).
    destruct (IH _ HI' E2) as (A & B & C). rewrite E1 in A, B, C.
    fold (run (run s (round (next s))) (rounds (next s + 1) n)). split; [|auto]. rewrite A. lia.
Qed.
