(** Proofs for [PrivateSpec]. *)
From Coq Require Import List Arith Bool Lia.
From Verif Require Import Base Tree TreeSpec BalanceSpec Balance PrivateSpec.
Import ListNotations.

Section Private.
Context {P : Params}.

Lemma private_tail t k v l1 l2 : private t k v (l1 ++ l2) -> private t k v l2.
Proof. intros H u o X. apply H. apply in_app_iff. auto. Qed.
Lemma private_cons t k v e l : private t k v (e :: l) -> private t k v l.
Proof. apply (private_tail t k v [e] l). Qed.

(** The latest call of a thread that has not returned is in the list. *)
Lemma now_in l t o : now l t = Some o -> In (VCall t o) l.
Proof.
  induction l as [|e l IH]; [discriminate|]. destruct e as [u o'|u o' r]; simpl; destruct (t =? u) eqn:E.
  - apply Nat.eqb_eq in E. subst u. intros X. injection X as ->. auto.
  - auto.
  - discriminate.
  - auto.
Qed.

Lemma own_other k v t o r l : target o <> Some (k, v) -> own k v (VRet t o r :: l) = own k v l.
Proof.
  intros H. destruct o as [k' v'|k' v'|k' v' pred|k'|k'|k'|]; simpl in *; auto.
  - destruct r as [[|]| | |]; auto. destruct (only k v k' v') eqn:E; auto. apply only_true in E. destruct E as (-> & ->). congruence.
  - destruct r as [[|]| | |]; auto. destruct (only k v k' v') eqn:E; auto. apply only_true in E. destruct E as (-> & ->). congruence.
  - destruct r as [|[|] ?| |]; auto. destruct (only k v k' v') eqn:E; auto. apply only_true in E. destruct E as (-> & ->). congruence.
Qed.

Lemma effect_other full o A A' r k v : effect full o A A' r -> target o <> Some (k, v) -> (A' k v <-> A k v).
Proof.
  intros He Ht.
  destruct o as [k' v'|k' v'|k' v' pred|k'|k'|k'|], r as [[|]|[|] [|]|lv|low items high]; simpl in He; try contradiction;
    try (symmetry; apply He).
  - destruct He as (_ & ->). simpl in Ht. split; [|auto]. intros [X|(-> & ->)]; [auto|congruence].
  - destruct He as (_ & ->). simpl in Ht. split; [tauto|]. intros X. split; [exact X|]. intros (-> & ->). congruence.
  - destruct He as (_ & _ & ->). simpl in Ht. split; [|auto]. intros [X|(-> & ->)]; [auto|congruence].
Qed.

Lemma only_refl k v : only k v k v = true.
Proof. apply only_true. auto. Qed.

Lemma effect_own full o A A' r k v t l b : effect full o A A' r -> target o = Some (k, v) ->
  (A k v <-> b = true) -> own k v l = b ->
  answer o b r /\ (A' k v <-> own k v (VRet t o r :: l) = true).
Proof.
  intros He Ht Hb El.
  destruct o as [k' v'|k' v'|k' v' pred|k'|k'|k'|]; simpl in Ht; try discriminate; injection Ht as -> ->;
    destruct r as [[|]|[|] [|]|lv|low items high]; simpl in He; try contradiction; simpl; rewrite ?only_refl, ?El.
  - destruct He as (N & ->). split; [|split; auto]. destruct b; [|reflexivity]. exfalso. apply N, Hb. reflexivity.
  - destruct He as (N & S). split; [apply Hb in N; rewrite N; reflexivity|]. rewrite <- (S k v). exact Hb.
  - destruct He as (N & ->). split; [symmetry; apply Hb, N|]. split; [tauto|discriminate].
  - destruct He as (N & S). split; [|rewrite <- (S k v); exact Hb]. destruct b; [|reflexivity]. exfalso. apply N, Hb. reflexivity.
  - destruct He as (N & _ & ->). split; [|split; auto]. split; [reflexivity|]. destruct b; [|reflexivity]. exfalso. apply N, Hb. reflexivity.
  - destruct He as (N & S). split; [exact I|]. rewrite <- (S k v). exact Hb.
  - destruct He as (N & S). split; [apply Hb, N|]. rewrite <- (S k v). exact Hb.
Qed.

(** The pair as thread [t] knows it. *)
Definition mine (t : nat) (k : K) (v : V) (l : list vis) (A : pairs) (st : nat -> status) : Prop :=
  match st t with
  | Done o r =>
      if match target o with Some (k', v') => only k v k' v' | None => false end
      then answer o (own k v l) r /\ (A k v <-> own k v (VRet t o r :: l) = true)
      else A k v <-> own k v l = true
  | _ => A k v <-> own k v l = true
  end.
Lemma targetb o k v : (match target o with Some (k', v') => only k v k' v' | None => false end) = true <-> target o = Some (k, v).
Proof.
  destruct (target o) as [(k', v')|]; [|split; discriminate]. rewrite only_true. split; [intros (-> & ->); auto|].
  intros X. injection X as -> ->. auto.
Qed.

(** Along an execution of the atomic object, the responses to updates of a
    private pair are those of a set owned by the thread. *)
Lemma aexec_mine full t k v atr a : aexec full atr a -> private t k v (avisible atr) ->
  mine t k v (avisible atr) (fst a) (snd a) /\
  forall l1 o r l2, avisible atr = l1 ++ VRet t o r :: l2 -> target o = Some (k, v) -> answer o (own k v l2) r.
Proof.
  induction 1 as [|tr a e a' H IH Hs]; intros Hp.
  - split; [unfold mine; simpl; split; [intros []|discriminate]|]. intros [|? ?] o r l2; discriminate.
  - assert (Hp' : private t k v (avisible tr)).
    { apply (private_tail t k v (avisible [e])). unfold avisible. simpl. rewrite app_nil_r. exact Hp. }
    specialize (IH Hp'). destruct IH as (Hm & Hr).
    pose proof (aexec_now _ _ _ H) as Hnow.
    inversion Hs as [A st u o E|A A' st u o r E E1|A st u o r E]; subst a e a'; simpl in *.
    + split.
      * unfold mine in *. unfold tset. destruct (t =? u) eqn:Et; simpl.
        -- apply Nat.eqb_eq in Et. subst u. rewrite E in Hm. exact Hm.
        -- destruct (st t) as [|o'|o' r']; try exact Hm.
      * intros l1 o' r' l2 Ex Ht. destruct l1 as [|e1 l1]; simpl in Ex; [discriminate|]. injection Ex as _ Ex. eauto.
    + split; [|exact Hr]. unfold mine in *. unfold tset. destruct (t =? u) eqn:Et.
      * apply Nat.eqb_eq in Et. subst u. rewrite E in Hm.
        destruct (match target o with Some (k', v') => only k v k' v' | None => false end) eqn:Eo.
        -- apply targetb in Eo. apply (effect_own full o A A' r k v t _ _ E1 Eo Hm eq_refl).
        -- assert (target o <> Some (k, v)) by (intros X; apply targetb in X; congruence).
           rewrite (effect_other full o A A' r k v E1 H0). exact Hm.
      * assert (target o <> Some (k, v)).
        { intros X. specialize (Hnow u). rewrite E in Hnow. simpl in Hnow. symmetry in Hnow. apply now_in in Hnow.
          apply Nat.eqb_neq in Et. apply Et. symmetry. eapply Hp'; eauto. }
        pose proof (effect_other full o A A' r k v E1 H0) as X.
        destruct (st t) as [|o'|o' r']; try (rewrite X; exact Hm).
        destruct (match target o' with Some (k', v') => only k v k' v' | None => false end); rewrite X; exact Hm.
    + assert (Hu : target o = Some (k, v) -> u = t).
      { intros X. specialize (Hnow u). rewrite E in Hnow. simpl in Hnow. symmetry in Hnow. apply now_in in Hnow.
        eapply Hp'; eauto. }
      split.
      * unfold mine in *. unfold tset. destruct (t =? u) eqn:Et.
        -- apply Nat.eqb_eq in Et. subst u. rewrite E in Hm.
           destruct (match target o with Some (k', v') => only k v k' v' | None => false end) eqn:Eo; [apply Hm|].
           rewrite Hm. change (own k v (avisible tr) = true <-> own k v (VRet t o r :: avisible tr) = true).
           rewrite own_other; [reflexivity|]. intros X. apply targetb in X. congruence.
        -- assert (Ho : forall x l, own k v (x :: VRet u o r :: l) = own k v (x :: l)).
           { assert (Ho : forall l, own k v (VRet u o r :: l) = own k v l).
             { intros l. apply own_other. intros X. apply Hu in X. subst u. rewrite Nat.eqb_refl in Et. discriminate. }
             intros x l. destruct x as [u' o'|u' o' r']; [exact (Ho l)|].
             destruct o' as [k' v'|k' v'|k' v' pred|k'|k'|k'|]; try exact (Ho l);
               destruct r' as [[|]|[|] [|]|lv|low items high]; try exact (Ho l);
               specialize (Ho l); revert Ho; generalize (VRet u o r :: l); intros l0 Ho; simpl; destruct (only k v k' v'); auto. }
           assert (Ho1 : own k v (VRet u o r :: avisible tr) = own k v (avisible tr))
             by exact (Ho (VCall 0 OpFirst) (avisible tr)).
           destruct (st t) as [|o'|o' r']; try (unfold mine in Hm; rewrite Hm, <- Ho1; reflexivity).
           destruct (match target o' with Some (k', v') => only k v k' v' | None => false end).
           ++ change (answer o' (own k v (VRet u o r :: avisible tr)) r' /\
                (A k v <-> own k v (VRet t o' r' :: VRet u o r :: avisible tr) = true)).
              rewrite Ho1, Ho. exact Hm.
           ++ rewrite Hm, <- Ho1. reflexivity.
      * intros l1 o' r' l2 Ex Ht. destruct l1 as [|e1 l1]; simpl in Ex.
        -- injection Ex as <- <- <- <-. unfold mine in Hm. rewrite E in Hm.
           rewrite (proj2 (targetb o k v) Ht) in Hm. apply Hm.
        -- injection Ex as _ Ex. eauto.
Qed.

Lemma exec_mine full t k v tr ss s : exec tr ss s -> linearizable full tr (sm s) -> private t k v (visible tr) ->
  (forall l1 o r l2, visible tr = l1 ++ VRet t o r :: l2 -> target o = Some (k, v) -> answer o (own k v l2) r) /\
  ((forall o p, running s t = Some (o, p) -> target o <> Some (k, v)) ->
   (contents (sm s) k v <-> own k v (visible tr) = true)).
Proof.
  intros Hx (atr & A & st & Ha & Ev & Es) Hp. rewrite <- Ev in *.
  destruct (aexec_mine _ t k v _ _ Ha Hp) as (Hm & Hr). split; [exact Hr|]. intros Hn.
  rewrite <- (Es k v). unfold mine in Hm. simpl in Hm.
  pose proof (aexec_now _ _ _ Ha t) as Y. simpl in Y. rewrite Ev, <- (exec_now _ _ _ Hx t) in Y.
  destruct (st t) as [|o|o r]; try exact Hm.
  destruct (match target o with Some (k', v') => only k v k' v' | None => false end) eqn:Eo; [|exact Hm].
  exfalso. apply targetb in Eo. destruct (running s t) as [[o' p]|] eqn:Er; [|discriminate].
  injection Y as <-. exact (Hn _ _ eq_refl Eo).
Qed.

(** GetValue by the owner of a key, where it is exact. *)
Lemma aexec_get t k atr a : aexec true atr a -> keeper t k (avisible atr) ->
  (forall vs, snd a t = Done (OpGet k) (RVals vs) -> NoDup vs /\ forall v, In v vs <-> own k v (avisible atr) = true) /\
  forall l1 vs l2, avisible atr = l1 ++ VRet t (OpGet k) (RVals vs) :: l2 ->
    NoDup vs /\ forall v, In v vs <-> own k v l2 = true.
Proof.
  induction 1 as [|tr a e a' H IH Hs]; intros Hp.
  - split; [discriminate|]. intros [|? ?]; discriminate.
  - assert (Hp' : keeper t k (avisible tr)).
    { intros v. apply (private_tail t k v (avisible [e])). unfold avisible. simpl. rewrite app_nil_r. apply Hp. }
    specialize (IH Hp'). destruct IH as (Hd & Hr).
    pose proof (aexec_now _ _ _ H) as Hnow.
    assert (Hm := fun v => proj1 (aexec_mine true t k v _ _ H (Hp' v))).
    inversion Hs as [A st u o E|A A' st u o r E E1|A st u o r E]; subst a e a'; simpl in *.
    + split.
      * intros vs. unfold tset. destruct (t =? u); [discriminate|]. apply Hd.
      * intros l1 vs l2 Ex. destruct l1 as [|e1 l1]; simpl in Ex; [discriminate|]. injection Ex as _ Ex. eauto.
    + split; [|exact Hr]. intros vs. unfold tset. destruct (t =? u) eqn:Et; [|apply Hd].
      apply Nat.eqb_eq in Et. subst u. intros X. injection X as -> ->. simpl in E1.
      destruct E1 as ((E1 & _) & _). destruct (E1 eq_refl) as (N & E2). split; [exact N|]. intros v. rewrite E2.
      specialize (Hm v). unfold mine in Hm. rewrite E in Hm. exact Hm.
    + split.
      * intros vs. unfold tset. destruct (t =? u) eqn:Et; [discriminate|]. intros X. apply Hd in X.
        destruct X as (N & X). split; [exact N|]. intros v. rewrite X.
        change (own k v (avisible tr) = true <-> own k v (VRet u o r :: avisible tr) = true).
        rewrite own_other; [reflexivity|]. intros Y. specialize (Hnow u). rewrite E in Hnow. simpl in Hnow.
        symmetry in Hnow. apply now_in in Hnow. pose proof (Hp' v u o Hnow Y). subst u.
        rewrite Nat.eqb_refl in Et. discriminate.
      * intros l1 vs l2 Ex. destruct l1 as [|e1 l1]; simpl in Ex.
        -- injection Ex as -> -> -> <-. apply Hd. exact E.
        -- injection Ex as _ Ex. eauto.
Qed.
(** * One call per pair *)
Lemma ret_call tr ss s : exec tr ss s -> forall t o r, In (VRet t o r) (visible tr) -> In (VCall t o) (visible tr).
Proof.
  intros Hx. induction Hx as [|tr ss s e s' H IH Hs]; intros t o r X; [destruct X|].
  pose proof (exec_now _ _ _ H) as Hn.
  inversion Hs as [s0 u o0 fuel E|s0 u o0 p E E1 E2|s0 u o0 r0 E]; subst s0 e s'; simpl in *.
  - destruct X as [X|X]; [discriminate|]. right. eauto.
  - eauto.
  - destruct X as [X|X]; [|right; eauto]. injection X as -> -> ->. right.
    specialize (Hn t). rewrite E in Hn. simpl in Hn. apply now_in. auto.
Qed.
Lemma tries_cons k v e l : tries k v (e :: l) =
  (if match e with VCall _ (OpIns k' v') | VCall _ (OpCond k' v' _) => only k v k' v' | _ => false end then 1 else 0) + tries k v l.
Proof. unfold tries. simpl. destruct (match e with VCall _ _ => _ | VRet _ _ _ => _ end); reflexivity. Qed.
Lemma tries_in k v l t : In (VCall t (OpIns k v)) l -> 1 <= tries k v l.
Proof.
  induction l as [|e l IH]; intros X; [destruct X|]. rewrite tries_cons. destruct X as [->|X].
  - rewrite only_refl. lia.
  - apply IH in X. lia.
Qed.
Lemma tries_one k v l u w : tries k v l <= 1 -> In (VCall u (OpIns k v)) l -> In (VCall w (OpIns k v)) l -> u = w.
Proof.
  induction l as [|e l IH]; intros Hn Hu Hw; [destruct Hu|]. rewrite tries_cons in Hn.
  destruct Hu as [->|Hu], Hw as [Hw|Hw].
  - injection Hw as ->. reflexivity.
  - apply tries_in in Hw. rewrite only_refl in Hn. lia.
  - subst e. apply tries_in in Hu. rewrite only_refl in Hn. lia.
  - apply IH; auto. lia.
Qed.
Definition returned (k : K) (v : V) (l : list vis) : nat :=
  length (filter (fun e => match e with VRet _ (OpIns k' v') _ => only k v k' v' | _ => false end) l).
Lemma returned_cons k v e l : returned k v (e :: l) =
  (if match e with VRet _ (OpIns k' v') _ => only k v k' v' | _ => false end then 1 else 0) + returned k v l.
Proof. unfold returned. simpl. destruct (match e with VCall _ _ => _ | VRet _ _ _ => _ end); reflexivity. Qed.
Lemma returned_in k v l t r : In (VRet t (OpIns k v) r) l -> 1 <= returned k v l.
Proof.
  induction l as [|e l IH]; intros X; [destruct X|]. rewrite returned_cons. destruct X as [->|X].
  - rewrite only_refl. lia.
  - apply IH in X. lia.
Qed.
Lemma returned_app k v l1 l2 : returned k v (l1 ++ l2) = returned k v l1 + returned k v l2.
Proof. unfold returned. rewrite filter_app, app_length. reflexivity. Qed.
Lemma exec_returned k v tr ss s : exec tr ss s -> exists L, NoDup L /\
  (forall t, In t L <-> match running s t with
     | Some (OpIns k' v', _) => only k v k' v' = true | _ => False end) /\
  returned k v (visible tr) + length L <= tries k v (visible tr).
Proof.
  induction 1 as [|tr ss s e s' H IH Hs].
  - exists []. split; [constructor|]. split; [intros t; simpl; tauto|reflexivity].
  - destruct IH as (L & NL & HL & Hc).
    inversion Hs as [s0 u o fuel E|s0 u o p E E1 E2|s0 u o r E]; subst s0 e s'; simpl.
    + set (b := match o with OpIns k' v' => only k v k' v' | _ => false end).
      assert (Hu : ~ In u L) by (intros X; apply HL in X; rewrite E in X; exact X).
      exists (if b then u :: L else L). split; [destruct b; [constructor; auto|exact NL]|]. split.
      * intros t. unfold tset. destruct (t =? u) eqn:Et.
        -- apply Nat.eqb_eq in Et. subst u. subst b.
           destruct o as [k' v'|k' v'|k' v' pred|k'|k'|k'|]; simpl; try (split; [exact Hu|tauto]);
             destruct (only k v k' v'); simpl; split; auto; try tauto; discriminate.
        -- apply Nat.eqb_neq in Et. rewrite <- HL. destruct b; simpl; [|tauto].
           split; [intros [X|X]; [congruence|exact X]|auto].
      * rewrite tries_cons, returned_cons. subst b. destruct o as [k' v'|k' v'|k' v' pred|k'|k'|k'|]; simpl; try lia;
          destruct (only k v k' v'); simpl; lia.
    + exists L. split; [exact NL|]. split; [|exact Hc]. intros t. rewrite HL. unfold tset.
      destruct (t =? u) eqn:Et; [|tauto]. apply Nat.eqb_eq in Et. subst u. rewrite E. tauto.
    + rewrite tries_cons, returned_cons. assert (In u L \/ ~ In u L) as [Hu|Hu] by (destruct (in_dec Nat.eq_dec u L); auto).
      * apply in_split in Hu. destruct Hu as (L1 & L2 & ->).
        pose proof (NoDup_remove_1 _ _ _ NL) as H1. pose proof (NoDup_remove_2 _ _ _ NL) as H2.
        exists (L1 ++ L2). split; [exact H1|]. split.
        -- intros t. unfold tset. destruct (t =? u) eqn:Et.
           ++ apply Nat.eqb_eq in Et. subst u. split; tauto.
           ++ apply Nat.eqb_neq in Et. rewrite <- HL, !in_app_iff. simpl. split; [tauto|].
              intros [X|[X|X]]; auto. congruence.
        -- rewrite app_length in *. simpl in *.
           destruct o as [k' v'|k' v'|k' v' pred|k'|k'|k'|]; try destruct (only k v k' v'); lia.
      * exists L. split; [exact NL|]. split.
        -- intros t. unfold tset. destruct (t =? u) eqn:Et; [|apply HL].
           apply Nat.eqb_eq in Et. subst u. split; tauto.
        -- destruct o as [k' v'|k' v'|k' v' pred|k'|k'|k'|]; try exact Hc.
           destruct (only k v k' v') eqn:Eo; [|exact Hc]. exfalso. apply Hu, HL. rewrite E. exact Eo.
Qed.
Lemma own_inserts k v l : (forall t o r, In (VRet t o r) l -> no_removal o) ->
  own k v l = existsb (fun e => match e with VRet _ (OpIns k' v') (RBool true) => only k v k' v' | _ => false end) l.
Proof.
  induction l as [|e l IH]; intros H; [reflexivity|].
  assert (IH' := IH (fun t o r X => H t o r (or_intror X))). clear IH.
  destruct e as [u o|u o r]; [exact IH'|]. specialize (H u o r (or_introl eq_refl)).
  destruct o as [k' v'|k' v'|k' v' pred|k'|k'|k'|]; try contradiction; try exact IH'.
  destruct r as [[|]| | |]; try exact IH'. simpl. rewrite IH'. destruct (only k v k' v'); reflexivity.
Qed.
Lemma insert_test full tr ss s t k v r : exec tr ss s -> linearizable full tr (sm s) ->
  (forall t o, In (VCall t o) (visible tr) -> no_removal o) ->
  (forall k v, tries k v (visible tr) <= 1) ->
  In (VRet t (OpIns k v) r) (visible tr) -> r = RBool true /\ contents (sm s) k v.
Proof.
  intros Hx Hl Ho Hn Hr. specialize (Hn k v).
  assert (Hp : private t k v (visible tr)).
  { intros u o Hu E. specialize (Ho u o Hu). destruct o; simpl in E; try discriminate; try contradiction.
    injection E as -> ->. apply (tries_one k v (visible tr) u t Hn Hu). eapply ret_call; eauto. }
  assert (Hret : forall t o r, In (VRet t o r) (visible tr) -> no_removal o)
    by (intros u o r' X; eapply Ho, ret_call; eauto).
  destruct (exec_mine _ t k v _ _ _ Hx Hl Hp) as (H1 & H2).
  destruct (exec_returned k v _ _ _ Hx) as (L & NL & HL & Hc).
  assert (Er : r = RBool true).
  { apply in_split in Hr. destruct Hr as (l1 & l2 & Ev).
    pose proof (H1 l1 _ r l2 Ev eq_refl) as X.
    destruct r as [b|b b'|vs|a1 a2 a3]; simpl in X; try contradiction. subst b. f_equal.
    destruct (own k v l2) eqn:Eo; [|reflexivity]. exfalso.
    rewrite own_inserts in Eo by (intros u o r' X; apply (Hret u o r'); rewrite Ev; apply in_app_iff; right; right; exact X).
    apply existsb_exists in Eo. destruct Eo as (e & He & Eb).
    destruct e as [u o|u o r']; [discriminate|]. destruct o as [k' v'| | | | | |]; try discriminate.
    destruct r' as [[|]| | |]; try discriminate. apply only_true in Eb. destruct Eb as (-> & ->).
    apply returned_in in He. rewrite Ev in Hc at 1. rewrite returned_app, returned_cons, only_refl in Hc. lia. }
  split; [exact Er|]. subst r. apply H2.
  - intros o p E X. assert (Eo : In (VCall t o) (visible tr)).
    { apply now_in. rewrite <- (exec_now _ _ _ Hx t), E. reflexivity. }
    specialize (Ho t o Eo). destruct o; simpl in X; try discriminate; try contradiction. injection X as -> ->.
    assert (In t L) by (apply HL; rewrite E; apply only_refl). destruct L as [|x L]; [contradiction|].
    apply returned_in in Hr. simpl in Hc. lia.
  - rewrite (own_inserts k v _ Hret). apply existsb_exists. eexists. split; [exact Hr|]. simpl. apply only_refl.
Qed.
End Private.
