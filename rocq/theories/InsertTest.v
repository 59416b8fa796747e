(** Proofs about the insert tests (C62). *)
From Coq Require Import List Arith ZArith NArith Lia Bool.
From Verif Require Import Base Leaf LeafSpec Tree TreeSpec TreeInv TreeLin BalanceSpec Balance PrivateSpec Private MomentSpec Moment FillSpec Fill InsertTestSpec.
Import ListNotations.

Section InsertTest.
Context {P : Params}.
Lemma vis_call tr t o : In (VCall t o) (visible tr) <-> In (ECall t o) tr.
Proof.
  unfold visible. rewrite in_flat_map. split.
  - intros ([u p|u|u p r] & Hi & He); simpl in He; try tauto; destruct He as [He|[]]; try discriminate. injection He as -> ->. exact Hi.
  - intros H. exists (ECall t o). split; [exact H|left; reflexivity].
Qed.
Lemma vis_ret tr t o r : In (VRet t o r) (visible tr) <-> In (ERet t o r) tr.
Proof.
  unfold visible. rewrite in_flat_map. split.
  - intros ([u p|u|u p q] & Hi & He); simpl in He; try tauto; destruct He as [He|[]]; try discriminate. injection He as -> -> ->. exact Hi.
  - intros H. exists (ERet t o r). split; [exact H|left; reflexivity].
Qed.
Lemma only_never U tr : only_inserts U tr -> never_deletes tr.
Proof. intros H t o Ho. apply H in Ho. destruct o; simpl in *; auto. Qed.

(** Without Delete: what is stored was asked for, what was inserted is stored. *)
Definition grown (l : list vis) (A : pairs) (st : nat -> status) : Prop :=
  (forall t o, op_of (st t) = Some o -> In (VCall t o) l) /\
  (forall k v, A k v -> exists t o, In (VCall t o) l /\ target o = Some (k, v)) /\
  (forall t k v r, In (VRet t (OpIns k v) r) l -> A k v) /\
  (forall t k v r, st t = Done (OpIns k v) r -> A k v).
Lemma effect_grows full o A A' r k v : effect full o A A' r -> no_delete o -> A k v -> A' k v.
Proof.
  intros He Hn Ha. destruct o as [k0 v0|k0 v0|k0 v0 pr|k0|k0|k0|]; destruct r as [b|b s|vs|lo it hi]; simpl in *; try tauto.
  - destruct b; destruct He as [_ He]; apply He; auto.
  - destruct b, s; try tauto; [destruct He as (_ & _ & He)|destruct He as (_ & He)|destruct He as (_ & He)]; apply He; auto.
  - destruct He as [_ He]. apply He. exact Ha.
  - destruct He as (_ & _ & _ & He). apply He. exact Ha.
  - destruct He as (_ & _ & He). apply He. exact Ha.
  - destruct He as (_ & _ & He). apply He. exact Ha.
Qed.
Lemma aexec_grown full atr a : aexec full atr a -> (forall t o, In (VCall t o) (avisible atr) -> no_delete o) -> grown (avisible atr) (fst a) (snd a).
Proof.
  induction 1 as [|tr a e a' Hx IH Hs]; intros Hd.
  - split; [discriminate|split; [intros k v []|split; [intros t k v r []|discriminate]]].
  - assert (Hd' : forall t o, In (VCall t o) (avisible tr) -> no_delete o) by (intros t o H; apply (Hd t o); cbn [avisible flat_map]; apply in_or_app; right; exact H).
    destruct (IH Hd') as (G1 & G2 & G3 & G4). clear IH. destruct Hs as [A st t o Hi|A A' st t o r Hc He|A st t o r Hr]; cbn [fst snd] in *; cbn [avisible flat_map app]; fold (avisible tr).
    + split; [|split; [|split]].
      * intros u p. unfold tset. destruct (u =? t) eqn:E; [|intros Hu; right; eauto]. apply Nat.eqb_eq in E. subst u. simpl. intros X. injection X as ->. left. reflexivity.
      * intros k v Ha. destruct (G2 k v Ha) as (u & p & Hu & Ht). exists u, p. split; [right; exact Hu|exact Ht].
      * intros u k v r [X|X]; [discriminate|eauto].
      * intros u k v r. unfold tset. destruct (u =? t); [discriminate|eauto].
    + assert (Ho : In (VCall t o) (avisible tr)) by (apply G1; rewrite Hc; reflexivity).
      assert (Hg : forall k v, A k v -> A' k v) by (intros k v; apply (effect_grows _ _ _ _ _ _ _ He (Hd' _ _ Ho))).
      split; [|split; [|split]].
      * intros u p. unfold tset. destruct (u =? t) eqn:E; [|eauto]. apply Nat.eqb_eq in E. subst u. simpl. intros X. injection X as <-. exact Ho.
      * intros k v Ha. destruct (target o) as [[k0 v0]|] eqn:Et.
        -- destruct (targetb o k v) as [_ _]. destruct (only k v k0 v0) eqn:Eo.
           ++ apply only_true in Eo as [-> ->]. exists t, o. auto.
           ++ assert (target o <> Some (k, v)) by (rewrite Et; intros X; injection X as -> ->; rewrite only_refl in Eo; discriminate).
              apply (effect_other _ _ _ _ _ _ _ He H) in Ha. eauto.
        -- assert (target o <> Some (k, v)) by congruence. apply (effect_other _ _ _ _ _ _ _ He H) in Ha. eauto.
      * intros u k v q X. apply Hg. eauto.
      * intros u k v q. unfold tset. destruct (u =? t) eqn:E; [|eauto]. intros X. injection X as -> ->. destruct q as [[|]| | |]; simpl in He; try tauto; destruct He as [H1 H2]; apply H2; auto.
    + split; [|split; [|split]].
      * intros u p. unfold tset. destruct (u =? t); [discriminate|]. intros X. right. eauto.
      * intros k v Ha. destruct (G2 k v Ha) as (u & p & Hu & Ht). exists u, p. split; [right; exact Hu|exact Ht].
      * intros u k v q [X|X]; [|eauto]. injection X as -> -> ->. eauto.
      * intros u k v q. unfold tset. destruct (u =? t); [discriminate|eauto].
Qed.
Lemma exec_grown tr ss s : exec tr ss s -> never_deletes tr ->
  (forall k v, contents (sm s) k v -> asked k v tr) /\ (forall k v, inserted k v tr -> contents (sm s) k v).
Proof.
  intros Hx Hd. assert (Hl : linearizable false tr (sm s)) by (apply (linearizable_ok false tr ss s Hx); discriminate).
  destruct Hl as (atr & A & st & Ha & Ev & Hs). apply aexec_grown in Ha; [|intros t o H; rewrite Ev in H; apply vis_call in H; eauto]. rewrite Ev in Ha. destruct Ha as (_ & G2 & G3 & _). cbn [fst snd] in *. split.
  - intros k v H. apply Hs in H. destruct (G2 _ _ H) as (t & o & H1 & H2). exists t, o. split; [apply vis_call; exact H1|exact H2].
  - intros k v (t & r & H). apply Hs. apply (G3 t k v r). apply vis_ret. exact H.
Qed.

Lemma flat_nil {A B} (f : A -> list B) l : (forall x, In x l -> f x = []) -> flat_map f l = [].
Proof. induction l as [|x l IH]; intros H; [reflexivity|]. cbn [flat_map]. rewrite (H x (or_introl eq_refl)), IH; [reflexivity|]. intros y Hy. apply H. right. exact Hy. Qed.
(** RandomInsertTest *)
Lemma random_insert U tr ss s : exec tr ss s -> only_inserts U tr ->
  successes tr <= length U /\ (length U <= successes tr -> forall k v, contents (sm s) k v <-> In (k, v) U).
Proof.
  intros Hx Ho. assert (Hl : linearizable false tr (sm s)) by (apply (linearizable_ok false tr ss s Hx); discriminate).
  destruct (exec_balanced false tr ss s Hx Hl) as (D & S & _ & HD & NS & HS & Hc). specialize (Hc all). rewrite !count_all in Hc.
  destruct (exec_grown _ _ _ Hx (only_never _ _ Ho)) as [Hg _].
  assert (Hi : incl S U). { intros [k v] H. apply HS in H. destruct (Hg _ _ H) as (t & o & H1 & H2). apply Ho in H1. destruct o; simpl in *; try discriminate; try tauto. injection H2 as -> ->. exact H1. }
  assert (Hd : forall e, In e (visible tr) -> match e with VRet _ o r => removed o r | VCall _ _ => [] end = []).
  { intros [t o|t o r] He; [reflexivity|]. pose proof (ret_call _ _ _ Hx _ _ _ He) as H. apply vis_call in H. apply Ho in H. destruct o; simpl in *; tauto. }
  assert (E1 : dels (visible tr) = []) by (apply flat_nil, Hd).
  assert (E2 : losses D = []).
  { apply flat_nil. intros [t [o r]] H. destruct (HD _ _ _ H) as (p & Hp). pose proof (exec_now _ _ _ Hx t) as N. rewrite Hp in N. simpl in N. symmetry in N. apply now_in in N. apply vis_call, Ho in N. destruct o; simpl in *; tauto. }
  rewrite E1, E2 in Hc. cbn [length] in Hc. pose proof (NoDup_incl_length NS Hi) as Hlen. unfold successes. split; [lia|]. intros Hu k v. rewrite <- HS. split; [apply Hi|].
  apply (NoDup_length_incl NS); [lia|exact Hi].
Qed.
(** GetValue while nothing of its key is being inserted any more. *)
Lemma insert_get tr ss s0 tr' ss' s t k l : exec tr ss s0 -> later s0 tr' ss' s -> never_deletes (tr' ++ tr) -> call_in tr' t (OpGet k) (RVals l) ->
  forall U, (forall v, In v U -> inserted k v tr) -> (forall v, asked k v (tr' ++ tr) -> In v U) -> NoDup l /\ forall v, In v l <-> In v U.
Proof.
  intros Hx Hl Hd Hc U H1 H2. destruct (moment_ok _ _ _ _ _ _ _ _ _ Hx Hl Hc) as (s1 & s2 & M & He).
  assert (Hi : In s1 ss') by (destruct M as [[_ M]|(a & b & ->)]; [exact M|apply in_or_app; right; right; left; auto]).
  destruct (He true (fun _ => fed_clean_later _ _ _ _ _ _ Hx Hl Hd _ Hi)) as [[He' _] _]. destruct (He' eq_refl) as [Hn Hv]. split; [exact Hn|]. intros v. rewrite Hv.
  destruct (later_past _ _ _ _ Hl _ Hi) as (a & b & ss1 & -> & Hb). destruct (exec_later _ _ _ Hx _ _ _ Hb) as (ss2 & Hx2).
  assert (Hd2 : never_deletes (b ++ tr)) by (intros u o H; apply (Hd u o); rewrite <- app_assoc; apply in_or_app; right; exact H).
  destruct (exec_grown _ _ _ Hx2 Hd2) as [G1 G2]. split.
  - intros H. apply H2. destruct (G1 _ _ H) as (u & o & Hu & Ht). exists u, o. split; [rewrite <- app_assoc; apply in_or_app; right; exact Hu|exact Ht].
  - intros H. apply G2. destruct (H1 v H) as (u & r & Hu). exists u, r. apply in_or_app. right. exact Hu.
Qed.
Lemma random_get U tr ss s0 tr' ss' s t k l : exec tr ss s0 -> later s0 tr' ss' s -> only_inserts U (tr' ++ tr) -> length U <= successes tr ->
  call_in tr' t (OpGet k) (RVals l) -> NoDup l /\ forall v, In v l <-> In (k, v) U.
Proof.
  intros Hx Hl Ho Hn Hc. destruct (moment_ok _ _ _ _ _ _ _ _ _ Hx Hl Hc) as (s1 & s2 & M & He).
  assert (Hi : In s1 ss') by (destruct M as [[_ M]|(a & b & ->)]; [exact M|apply in_or_app; right; right; left; auto]).
  destruct (He true (fun _ => fed_clean_later _ _ _ _ _ _ Hx Hl (only_never _ _ Ho) _ Hi)) as [[He' _] _]. destruct (He' eq_refl) as [Hd Hv]. split; [exact Hd|]. intros v. rewrite Hv.
  destruct (later_past _ _ _ _ Hl _ Hi) as (a & b & ss1 & -> & Hb). destruct (exec_later _ _ _ Hx _ _ _ Hb) as (ss2 & Hx2).
  apply (random_insert U _ _ _ Hx2).
  - intros u o H. apply (Ho u o). rewrite <- app_assoc. apply in_or_app. right. exact H.
  - unfold successes in *. unfold visible. rewrite flat_map_app. unfold adds. rewrite flat_map_app, app_length. unfold adds, visible in Hn. lia.
Qed.
End InsertTest.
