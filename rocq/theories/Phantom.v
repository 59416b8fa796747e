(** GetValue returns stored values only; reading after the deletes (C63). *)
From Coq Require Import List Arith Bool Lia.
From Verif Require Import Base Leaf LeafSpec Inner Tree TreeSpec TreeRun BalanceSpec PrivateSpec MomentSpec Moment InsertTestSpec InsertTest.
Import ListNotations.

Section Phantom.
Context {P : Params}.

Lemma get_only_stored tr ss s0 tr' ss' s t k l : exec tr ss s0 -> later s0 tr' ss' s -> call_in tr' t (OpGet k) (RVals l) ->
  exists s1, In s1 ss' /\ NoDup l /\ forall v, In v l -> contents (sm s1) k v.
Proof.
  intros Hx Hl Hc. destruct (moment_ok _ _ _ _ _ _ _ _ _ Hx Hl Hc) as (s1 & s2 & M & He).
  exists s1. split; [destruct M as [[_ M]|(a & b & ->)]; [exact M|apply in_or_app; right; right; left; auto]|].
  destruct (He false) as [[_ H] _]; [discriminate|exact H].
Qed.

Lemma later_from s0 tr ss s : later s0 tr ss s -> forall x, In x ss -> exists a b ss1 ss2, tr = a ++ b /\ later s0 b ss1 x /\ later x a ss2 s.
Proof.
  induction 1 as [|tr ss s e s' Hl IH Hs]; intros x [<-|Hi].
  - exists [], [], [s0], [s0]. split; [reflexivity|]. split; constructor.
  - destruct Hi.
  - exists [], (e :: tr), (s' :: ss), [s']. split; [reflexivity|]. split; [econstructor; eauto|constructor].
  - destruct (IH x Hi) as (a & b & ss1 & ss2 & -> & H1 & H2). exists (e :: a), b, ss1, (s' :: ss2). split; [reflexivity|]. split; [exact H1|]. econstructor; eauto.
Qed.
Lemma later_trans s0 b ss1 x a ss2 s : later s0 b ss1 x -> later x a ss2 s -> exists ss, later s0 (a ++ b) ss s.
Proof.
  intros H1 H2. induction H2 as [|a ss2 s e s' Hl [ss IH] Hs]; [exists ss1; exact H1|]. exists (s' :: ss). simpl. econstructor; eauto.
Qed.
Lemma called_from s0 b ss1 x a o : later s0 b ss1 x -> called x a o -> called s0 (a ++ b) o.
Proof.
  intros Hl [(t & p & H)|[t H]]; [|right; exists t; apply in_or_app; left; exact H].
  destruct (later_called _ _ _ _ Hl _ _ _ H) as [C|[u C]]; [left; exact C|right; exists u; apply in_or_app; right; exact C].
Qed.

Lemma absent_get tr ss s0 tr' ss' s t k l : exec tr ss s0 -> later s0 tr' ss' s -> (forall v, ~ contents (sm s0) k v) ->
  (forall v, ~ called s0 tr' (OpIns k v)) -> (forall v pr, ~ called s0 tr' (OpCond k v pr)) ->
  call_in tr' t (OpGet k) (RVals l) -> l = [].
Proof.
  intros Hx Hl H0 H1 H2 Hc. destruct (get_only_stored _ _ _ _ _ _ _ _ _ Hx Hl Hc) as (s1 & Hi & _ & Hv).
  destruct l as [|v l]; [reflexivity|]. exfalso.
  apply (kept_out _ _ _ _ _ _ k v Hx Hl (H0 v) (H1 v) (H2 v)). exists s1. split; [exact Hi|]. apply Hv. left. reflexivity.
Qed.

(** After a Delete nobody inserts behind, the pair is gone. *)
Lemma deleted_gone tr ss s0 tr' ss' s t k v r : exec tr ss s0 -> later s0 tr' ss' s -> call_in tr' t (OpDel k v) r ->
  ~ called s0 tr' (OpIns k v) -> (forall pr, ~ called s0 tr' (OpCond k v pr)) -> ~ contents (sm s) k v.
Proof.
  intros Hx Hl Hc H1 H2. destruct (moment_ok _ _ _ _ _ _ _ _ _ Hx Hl Hc) as (a & b & M & He). specialize (He false ltac:(discriminate)).
  assert (Hb : In b ss') by (destruct M as [[<- M]|(x & y & ->)]; [exact M|apply in_or_app; right; left; auto]).
  assert (Hn : ~ contents (sm b) k v).
  { destruct r as [[]| | |]; simpl in He; try tauto.
    - destruct He as [_ He]. intros C. apply He in C. tauto.
    - destruct He as [He Hs]. intros C. apply He, Hs, C. }
  destruct (later_from _ _ _ _ Hl b Hb) as (e2 & e1 & ss1 & ss2 & -> & L1 & L2).
  destruct (exec_later _ _ _ Hx _ _ _ L1) as (ss3 & Hx3). intros C.
  apply (kept_out _ _ _ _ _ _ k v Hx3 L2 Hn).
  - intros D. apply H1. eapply called_from; eauto.
  - intros pr D. apply (H2 pr). eapply called_from; eauto.
  - exists s. split; [apply (later_head _ _ _ _ L2)|exact C].
Qed.

Lemma delete_get tr ss s0 tr' ss' s1 tr'' ss'' s t k l :
  exec tr ss s0 -> later s0 tr' ss' s1 -> later s1 tr'' ss'' s ->
  (forall v, ~ called s0 (tr'' ++ tr') (OpIns k v)) -> (forall v pr, ~ called s0 (tr'' ++ tr') (OpCond k v pr)) ->
  (forall v, contents (sm s0) k v -> exists u r, call_in tr' u (OpDel k v) r) ->
  call_in tr'' t (OpGet k) (RVals l) -> l = [].
Proof.
  intros Hx L1 L2 H1 H2 Hd Hc. destruct (exec_later _ _ _ Hx _ _ _ L1) as (ss3 & Hx3).
  assert (W : forall o, called s0 tr' o -> called s0 (tr'' ++ tr') o).
  { intros o [C|[u C]]; [left; exact C|right; exists u; apply in_or_app; right; exact C]. }
  apply (absent_get _ _ _ _ _ _ t k l Hx3 L2); [|intros v C; apply (H1 v); eapply called_from; eauto|intros v pr C; apply (H2 v pr); eapply called_from; eauto|exact Hc].
  intros v C. assert (N : ~ contents (sm s0) k v).
  { intros C0. destruct (Hd v C0) as (u & r & Hr). revert C. apply (deleted_gone _ _ _ _ _ _ u k v r Hx L1 Hr); [intros D; apply (H1 v), W, D|intros pr D; apply (H2 v pr), W, D]. }
  apply (kept_out _ _ _ _ _ _ k v Hx L1 N); [intros D; apply (H1 v), W, D|intros pr D; apply (H2 v pr), W, D|].
  exists s1. split; [apply (later_head _ _ _ _ L1)|exact C].
Qed.

(** What is stored was asked for. *)
Lemma exec_from_init tr ss s : exec tr ss s -> later sinit tr ss s.
Proof. induction 1 as [|tr ss s e s' Hx IH Hs]; [constructor|econstructor; eauto]. Qed.
Lemma asked_more e k v tr : asked k v tr -> asked k v (e :: tr).
Proof. intros (t & o & H & E). exists t, o. split; [right; exact H|exact E]. Qed.
Lemma stored_asked tr ss s : exec tr ss s -> forall k v, contents (sm s) k v -> asked k v tr.
Proof.
  induction 1 as [|tr ss s e s' Hx IH Hs]; intros k v H; [destruct (TreeInv.contents_init _ _ H)|]. apply asked_more.
  destruct (later_change _ _ _ _ _ _ _ _ Hx (L_here s) Hs) as [Hc|(o & r & [(t & p & Hr)|[t []]] & He)]; [apply IH, Hc, H|].
  assert (Ho : target o = Some (k, v) \/ contents (sm s) k v).
  { destruct o as [a b|a b|a b pr|a|a|a|], r as [[]|[] []|l|low items high]; simpl in He; try tauto;
      try (right; apply He; exact H);
      try (destruct He as [_ He]; apply He in H; destruct H as [H|[-> ->]]; [right; exact H|left; reflexivity]);
      try (destruct He as (_ & _ & He); apply He in H; destruct H as [H|[-> ->]]; [right; exact H|left; reflexivity]). }
  destruct Ho as [Ho|Ho]; [|apply IH, Ho]. destruct (later_called _ _ _ _ (exec_from_init _ _ _ Hx) _ _ _ Hr) as [(u & q & E)|[u E]]; [discriminate|].
  exists u, o. split; [exact E|exact Ho].
Qed.
End Phantom.
