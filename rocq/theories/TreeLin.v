(** Linearizability of the index from the safety of its operations. *)
From Coq Require Import NArith List Arith Lia Bool ZArith.
From Verif Require Import Base Leaf LeafSpec Inner InnerSpec Tree TreeSpec TreeInv TreeSafe TreeProg TreeProg4.
Import ListNotations.

Section TreeLin.
Context {P : Params}.
Notation hist := (list world).

(** * One step of one thread *)
(** Programs whose next step only reads. *)
Definition loads {A} (p : prog A) : Prop := match p with PLoad _ _ | LoadRoot _ => True | _ => False end.
(** The next step changes the memory. *)
Definition hits {A} (m : mem) (p : prog A) : Prop :=
  match p with Cas i o _ _ | CasPtr i o _ _ => tab m i = Some o | CasRoot o _ _ => root m = o | NewNode _ _ => True | _ => False end.
Lemma thread_step {A} (D : world -> world -> A -> Prop) own (p : prog A) Q h : hgood h -> safe D own p Q h ->
  (forall a, p <> Ret a) ->
  let m' := fst (pstep (wm (now h)) p) in
  let p' := snd (pstep (wm (now h)) p) in
  nid (wm (now h)) <= nid m' /\
  ((m' = wm (now h) /\ exists own', (own' = own /\ loads p \/ own' = None) /\ safe D own' p' Q h) \/
   (exists w' own', wm w' = m' /\ guar own (now h) w' /\ hits (wm (now h)) p /\ same (contents (wm (now h))) (contents m') /\
      (own' = None \/ own' = Some (nid (wm (now h))) /\ nid m' = S (nid (wm (now h)))) /\
      (forall n k, p = NewNode n k -> own' = Some (nid (wm (now h))) /\ ~ pub w' (nid (wm (now h)))) /\
      ((forall n k, p <> NewNode n k) -> own' = None) /\ safe D own' p' Q (w' :: h)) \/
   (exists w' a, wm w' = m' /\ guar own (now h) w' /\ hits (wm (now h)) p /\ p' = Ret a /\ D (now h) w' a /\ (forall n k, p <> NewNode n k))).
Proof.
  intros Hg Hs Hr. pose proof (hext_refl own h Hg) as Hx.
  destruct p as [a|e|i k|i o n k|i o n k|k|o n k|n k]; cbn [pstep].
  - exfalso; eapply Hr; eauto.
  - simpl. split; auto. left. split; auto. exists None. auto.
  - destruct (get (wm (now h)) i) as [x|] eqn:E; cbn [fst snd]; (split; [auto|left; split; [auto|exists own; split; [left; split; [reflexivity|exact I]|]]]).
    + apply (Hs h Hx); auto.
    + exact I.
  - destruct (Hs h Hx) as [H1 H2]. destruct (tab (wm (now h)) i) as [q|] eqn:E.
    2:{ simpl. split; auto. left. split; auto. exists None. split; auto. apply H1. congruence. }
    destruct (N.eqb q o) eqn:Eo.
    2:{ apply N.eqb_neq in Eo. simpl. split; auto. left. split; auto. exists None. split; auto. apply H1. congruence. }
    apply N.eqb_eq in Eo. subst q. destruct (H2 eq_refl) as (_ & pb & G & [[S R]|(a & Ea & Da)]); simpl; (split; [auto|right]).
    + left. eexists _, None. split; [|split; [exact G|split; [exact E|split; [exact S|split; [auto|split; [discriminate|split; [auto|exact R]]]]]]]. reflexivity.
    + right. eexists _, a. split; [|split; [exact G|split; [exact E|split; [exact Ea|split; [exact Da|discriminate]]]]]. reflexivity.
  - destruct (Hs h Hx) as [H1 H2]. destruct (tab (wm (now h)) i) as [q|] eqn:E.
    2:{ simpl. split; auto. left. split; auto. exists None. split; auto. apply H1. congruence. }
    destruct (N.eqb q o) eqn:Eo.
    2:{ apply N.eqb_neq in Eo. simpl. split; auto. left. split; auto. exists None. split; auto. apply H1. congruence. }
    apply N.eqb_eq in Eo. subst q. destruct (H2 eq_refl) as (pb & G & [[S R]|(a & Ea & Da)]); simpl; (split; [auto|right]).
    + left. eexists _, None. split; [|split; [exact G|split; [exact E|split; [exact S|split; [auto|split; [discriminate|split; [auto|exact R]]]]]]]. reflexivity.
    + right. eexists _, a. split; [|split; [exact G|split; [exact E|split; [exact Ea|split; [exact Da|discriminate]]]]]. reflexivity.
  - simpl. split; auto. left. split; auto. exists own. split; [left; split; [reflexivity|exact I]|]. apply (Hs h Hx).
  - destruct (Hs h Hx) as [H1 H2]. destruct (root (wm (now h)) =? o) eqn:Eo.
    2:{ apply Nat.eqb_neq in Eo. simpl. split; auto. left. split; auto. exists None. split; [auto|]. apply H1; exact Eo. }
    apply Nat.eqb_eq in Eo. destruct (H2 Eo) as (pb & G & [[S R]|(a & Ea & Da)]); simpl; (split; [auto|right]).
    + left. eexists _, None. split; [|split; [exact G|split; [exact Eo|split; [exact S|split; [auto|split; [discriminate|split; [auto|exact R]]]]]]]. reflexivity.
    + right. eexists _, a. split; [|split; [exact G|split; [exact Eo|split; [exact Ea|split; [exact Da|discriminate]]]]]. reflexivity.
  - simpl. split; [auto|]. right. left. pose proof (Hs h Hx) as H1. cbn zeta in H1.
    destruct (new_guar own (now h) n (now_ok _ Hg)) as [G S].
    eexists _, _. split; [|split; [exact G|split; [exact I|split; [exact S|split; [|split; [|split; [|exact H1]]]]]]]; auto.
    + intros n0 k0 _. split; auto. simpl. intros Hp. destruct (k_pub _ (now_ok _ Hg) _ Hp) as (n1 & Hn1 & _).
      apply node_of_get in Hn1 as (p1 & Hg1). apply get_tab in Hg1 as [Ht1 _]. apply (b_tab _ (k_bound _ (now_ok _ Hg))) in Ht1. lia.
    + intros Hx'. destruct (Hx' _ _ eq_refl).
Qed.

(** * The atomic object up to extensional equality *)
Definition compat (full : bool) (tr : list event) (A : pairs) (st : nat -> status) : Prop :=
  exists atr A' st', aexec full atr (A', st') /\ avisible atr = visible tr /\ same A A' /\ forall t, st t = st' t.
Lemma same_sym A B : same A B -> same B A.
Proof. intros H k v. symmetry. apply H. Qed.
Lemma same_trans A B C : same A B -> same B C -> same A C.
Proof. intros H1 H2 k v. rewrite (H1 k v). apply H2. Qed.
Lemma effect_same full o A A' B B' r : same A B -> same A' B' -> effect full o A A' r -> effect full o B B' r.
Proof.
  intros HA HB. assert (S : same A A' -> same B B') by (intros H k v; rewrite <- (HA k v), <- (HB k v); apply H).
  assert (Pg : forall low items high, page_of A low items high -> page_of B low items high).
  { intros low items high (X & Y & Z). split; auto. split; auto. intros k v. rewrite <- (HA k v). apply Z. }
  destruct o, r as [[]|[] []|l|low items high]; simpl; try tauto; rewrite ?(HA k v).
  - intros [H1 H2]. split; auto. intros k' v'. rewrite <- (HA k' v'), <- (HB k' v'). apply H2.
  - intros [H1 H2]; auto.
  - intros [H1 H2]. split; auto. intros k' v'. rewrite <- (HA k' v'), <- (HB k' v'). apply H2.
  - intros [H1 H2]; auto.
  - intros (H1 & H2 & H3). split; auto. split; [intros x; rewrite <- (HA k x); apply H2|].
    intros k' v'. rewrite <- (HA k' v'), <- (HB k' v'). apply H3.
  - intros ((x & H1 & H1') & H2). split; auto. exists x. rewrite <- (HA k x). auto.
  - intros [H1 H2]; auto.
  - intros [[H1 [H3 H4]] H2]. split; auto. split; [|split; [exact H3|intros v Hv; apply HA, H4, Hv]]. intros Hf. destruct (H1 Hf) as [X Y]. split; auto. intros v. rewrite <- (HA k v). apply Y.
  - intros (H1 & H2 & H3 & H4). auto.
  - intros (H1 & H2 & H3). auto.
  - intros (H1 & H2 & H3). auto.
Qed.
Lemma tset_same {A} (f : nat -> A) t x : tset f t x t = x.
Proof. unfold tset. rewrite Nat.eqb_refl. auto. Qed.
Lemma tset_other {A} (f : nat -> A) t x u : u <> t -> tset f t x u = f u.
Proof. unfold tset. intros H. destruct (u =? t) eqn:E; auto. apply Nat.eqb_eq in E. congruence. Qed.

Lemma compat_ext full tr A B st st' : compat full tr A st -> same A B -> (forall t, st t = st' t) -> compat full tr B st'.
Proof.
  intros (atr & A' & s & X & V & SA & SS) HS HT. exists atr, A', s. split; auto. split; auto.
  split; [eapply same_trans; [apply same_sym; exact HS|exact SA]|]. intros t. rewrite <- HT. auto.
Qed.
Lemma compat_lin full tr A A' st t o r : compat full tr A st -> st t = Called o -> effect full o A A' r ->
  compat full tr A' (tset st t (Done o r)).
Proof.
  intros (atr & B & s & X & V & SA & SS) Ht He. exists (ALin t :: atr), A', (tset s t (Done o r)).
  split; [|split; [exact V|split; [intros k v; tauto|]]].
  - eapply AX_step; [exact X|]. eapply A_lin; [rewrite <- SS; exact Ht|]. eapply effect_same; [exact SA| |exact He].
    intros k v; tauto.
  - intros u. unfold tset. destruct (u =? t); auto.
Qed.
Lemma compat_call full tr A st t o : compat full tr A st -> st t = Idle ->
  compat full (ECall t o :: tr) A (tset st t (Called o)).
Proof.
  intros (atr & B & s & X & V & SA & SS) Ht. exists (ACall t o :: atr), B, (tset s t (Called o)).
  split; [|split; [simpl; congruence|split; [auto|]]].
  - eapply AX_step; [exact X|]. apply A_call. rewrite <- SS; auto.
  - intros u. unfold tset. destruct (u =? t); auto.
Qed.
Lemma compat_ret full tr A st t o r : compat full tr A st -> st t = Done o r ->
  compat full (ERet t o r :: tr) A (tset st t Idle).
Proof.
  intros (atr & B & s & X & V & SA & SS) Ht. exists (ARet t o r :: atr), B, (tset s t Idle).
  split; [|split; [simpl; congruence|split; [auto|]]].
  - eapply AX_step; [exact X|]. apply A_ret. rewrite <- SS; auto.
  - intros u. unfold tset. destruct (u =? t); auto.
Qed.

(** * The global invariant *)
Inductive tst := TIdle | TRun (o : op) (own : option nat) (h : hist) | TFin (o : op) (r : resp).
Definition base (x : tst) : status := match x with TIdle => Idle | TRun o _ _ => Called o | TFin o r => Done o r end.
Definition own_of (x : tst) : option nat := match x with TRun _ own _ => own | _ => None end.
Definition thread_ok (s : sys) (ss : list sys) (w : world) (t : nat) (x : tst) : Prop :=
  match x with
  | TIdle => running s t = None
  | TRun o own h => exists p, running s t = Some (o, p) /\ safe (act o) own p (done o) h /\ hgood h /\ now h = w /\
      forall w', In w' h -> exists s', In s' ss /\ sm s' = wm w'
  | TFin o r => running s t = Some (o, Ret r)
  end.
(** The thread may already have read this result. *)
Definition just (full : bool) (x : tst) (r : resp) : Prop :=
  match x with
  | TRun o _ h => exists w, In w h /\ effect full o (contents (wm w)) (contents (wm w)) r
  | _ => False
  end.
Definition option_ok (full : bool) (x : tst) (s : status) : Prop :=
  s = base x \/ exists o r, base x = Called o /\ s = Done o r /\ just full x r.
Record ginv (full : bool) (tr : list event) (s : sys) (ss : list sys) (w : world) (g : nat -> tst) : Prop := {
  gi_mem : wm w = sm s;
  gi_ok : wok w;
  gi_thread : forall t, thread_ok s ss w t (g t);
  gi_bound : forall t j, own_of (g t) = Some j -> j < nid (wm w);
  gi_uniq : forall t u j, own_of (g t) = Some j -> own_of (g u) = Some j -> t = u;
  gi_lin : forall st l, (forall t, In t l \/ st t = base (g t)) -> (forall t, option_ok full (g t) (st t)) ->
             compat full tr (contents (wm w)) st
}.

(** Pushing a new world onto all histories. *)
Definition push (w' : world) (x : tst) : tst := match x with TRun o own h => TRun o own (w' :: h) | _ => x end.
Lemma push_base w' x : base (push w' x) = base x.
Proof. destruct x; auto. Qed.
Lemma push_just full w' x r : just full (push w' x) r ->
  just full x r \/ exists o, base x = Called o /\ effect full o (contents (wm w')) (contents (wm w')) r.
Proof.
  destruct x as [|o own h|]; simpl; try tauto. intros (w & [<-|Hw] & He); [right; eauto|left; eauto].
Qed.
Lemma push_thread s s' ss w w' t x own0 : thread_ok s ss w t x -> guar own0 w w' -> sm s' = wm w' ->
  running s' t = running s t -> (forall j, own_of x = Some j -> own0 <> Some j /\ j < nid (wm w)) ->
  thread_ok s' (s' :: ss) w' t (push w' x).
Proof.
  intros H Hg Hm Hr Ho. destruct x as [|o own h|o r]; simpl in *; try congruence.
  destruct H as (p & H1 & H2 & H3 & H4 & H5). exists p. split; [congruence|]. subst w.
  assert (Hg' : hgood (w' :: h)) by (eapply hgood_cons; eauto).
  split; [|split; [exact Hg'|split; [auto|]]].
  - eapply safe_ext; [exact H2|]. constructor.
    + exists [w']; auto.
    + apply Hg.
    + exact Hg'.
    + simpl. destruct own as [j|]; simpl; auto. destruct (Ho j eq_refl) as [A B]. intros Hn. apply Hg; auto.
  - intros w1 [<-|Hw1]; [exists s'; auto|]. destruct (H5 _ Hw1) as (s1 & A & B). exists s1. split; [right|]; auto.
Qed.
Lemma keep_thread s s' ss w t x : thread_ok s ss w t x -> running s' t = running s t ->
  thread_ok s' (s' :: ss) w t x.
Proof.
  intros H Hr. destruct x as [|o own h|o r]; simpl in *; try congruence.
  destruct H as (p & H1 & H2 & H3 & H4 & H5). exists p. split; [congruence|]. split; auto. split; auto. split; auto.
  intros w1 Hw1. destruct (H5 _ Hw1) as (s1 & A & B). exists s1. split; [right|]; auto.
Qed.

(** Results read in the new world are appended to the atomic execution. *)
Lemma lin_push full tr (g : nat -> tst) w' : 
  (forall st l, (forall t, In t l \/ st t = base (g t)) -> (forall t, option_ok full (g t) (st t)) ->
     compat full tr (contents (wm w')) st) ->
  forall st l, (forall t, In t l \/ st t = base (g t)) -> (forall t, option_ok full (push w' (g t)) (st t)) ->
     compat full tr (contents (wm w')) st.
Proof.
  intros H st l Hl Ho.
  assert (G : forall l' st, (forall t, In t l \/ st t = base (g t)) ->
    (forall t, option_ok full (g t) (st t) \/ (In t l' /\ exists o r, base (g t) = Called o /\ st t = Done o r /\
       effect full o (contents (wm w')) (contents (wm w')) r)) -> compat full tr (contents (wm w')) st).
  { clear st Hl Ho. induction l' as [|t0 l' IH]; intros st Hl Ho.
    - eapply H; [exact Hl|]. intros t. destruct (Ho t) as [|[[] _]]; auto.
    - destruct (Ho t0) as [H0|(_ & o & r & B & E & He)].
      + apply IH; auto. intros t. destruct (Ho t) as [|[[<-|Hin] X]]; auto.
      + assert (Hc : compat full tr (contents (wm w')) (tset st t0 (Called o))).
        { apply IH.
          - intros t. destruct (Nat.eq_dec t t0) as [->|Hne]; [rewrite tset_same; auto|rewrite tset_other; auto].
          - intros t. destruct (Nat.eq_dec t t0) as [->|Hne].
            + rewrite tset_same. left. left. auto.
            + rewrite tset_other by auto. destruct (Ho t) as [|[[<-|Hin] X]]; auto. congruence. }
        eapply compat_ext; [eapply (compat_lin _ _ _ _ _ t0 o r Hc); [apply tset_same|exact He]|intros k v; tauto|].
        intros t. unfold tset. destruct (t =? t0) eqn:Et; auto. apply Nat.eqb_eq in Et. congruence. }
  apply (G l); auto. intros t. destruct (Ho t) as [E|(o & r & B & E & J)].
  - left. left. rewrite push_base in E. auto.
  - rewrite push_base in B. destruct (Hl t) as [Hin|E']; [|left; left; auto].
    destruct (push_just _ _ _ _ J) as [J'|(o' & B' & He)].
    + left. right. exists o, r. auto.
    + right. split; auto. exists o, r. rewrite B in B'. inversion B'; subst o'. auto.
Qed.

Lemma step_call full tr s ss w g t o fuel : ginv full tr s ss w g -> running s t = None ->
  let s' := {| sm := sm s; running := tset (running s) t (Some (o, code fuel o)) |} in
  In s ss ->
  ginv full (ECall t o :: tr) s' (s' :: ss) w (tset g t (TRun o None [w])).
Proof.
  intros [Hm Hok Ht Hb Hu Hl] Hr s' Hss.
  assert (Hgt : g t = TIdle).
  { specialize (Ht t). destruct (g t) as [|o' own h|o' r]; auto; simpl in Ht; [destruct Ht as (p & E & _)|]; congruence. }
  assert (Hgw : hgood [w]) by (split; [discriminate|intros x [<-|[]]; auto]).
  constructor; auto.
  - intros u. destruct (Nat.eq_dec u t) as [->|Hne].
    + rewrite tset_same. simpl. exists (code fuel o). rewrite tset_same. split; auto. split; [apply code_safe; auto|].
      split; auto. split; auto. intros w1 [<-|[]]. exists s. split; [right; exact Hss|auto].
    + rewrite tset_other by auto. apply (keep_thread s); auto. simpl. apply tset_other; auto.
  - intros u j. destruct (Nat.eq_dec u t) as [->|Hne]; [rewrite tset_same; discriminate|rewrite tset_other by auto; apply Hb].
  - intros u v j. destruct (Nat.eq_dec u t) as [->|Hne]; [rewrite tset_same; discriminate|rewrite tset_other by auto].
    destruct (Nat.eq_dec v t) as [->|Hne2]; [rewrite tset_same; discriminate|rewrite tset_other by auto; eauto].
  - intros st l Hl1 Ho.
    assert (Hc0 : compat full (ECall t o :: tr) (contents (wm w)) (tset (tset st t Idle) t (Called o))).
    { apply compat_call; [|apply tset_same]. apply (Hl _ (t :: l)).
      - intros u. destruct (Nat.eq_dec u t) as [->|Hne]; [simpl; auto|rewrite tset_other by auto].
        destruct (Hl1 u) as [|E]; [simpl; auto|]. rewrite tset_other in E by auto. auto.
      - intros u. destruct (Nat.eq_dec u t) as [->|Hne].
        + rewrite tset_same, Hgt. left. auto.
        + rewrite tset_other by auto. specialize (Ho u). rewrite tset_other in Ho by auto. exact Ho. }
    pose proof (Ho t) as Hot. rewrite tset_same in Hot. destruct Hot as [E|(o' & r & B & E & J)].
    + eapply compat_ext; [exact Hc0|intros k v; tauto|]. intros u. unfold tset. destruct (u =? t) eqn:Eu; auto.
      apply Nat.eqb_eq in Eu. subst u. auto.
    + simpl in B. inversion B; subst o'. destruct J as (w1 & [<-|[]] & He).
      eapply compat_ext; [eapply (compat_lin _ _ _ _ _ t o r Hc0); [apply tset_same|exact He]|intros k v; tauto|].
      intros u. unfold tset. destruct (u =? t) eqn:Eu; auto. apply Nat.eqb_eq in Eu. subst u. auto.
Qed.

Lemma step_ret full tr s ss w g t o r : ginv full tr s ss w g -> running s t = Some (o, Ret r) ->
  (full = true -> forall s', In s' ss -> exact_at o (sm s')) ->
  let s' := {| sm := sm s; running := tset (running s) t None |} in
  ginv full (ERet t o r :: tr) s' (s' :: ss) w (tset g t TIdle).
Proof.
  intros [Hm Hok Ht Hb Hu Hl] Hr Hcl s'.
  assert (Hbase : option_ok full (g t) (Done o r)).
  { specialize (Ht t). destruct (g t) as [|o' own h|o' r']; simpl in Ht.
    - congruence.
    - destruct Ht as (p & E & Hs & Hg & Hn & Hw). rewrite Hr in E. inversion E; subst o' p.
      right. exists o, r. split; auto. split; auto. destruct (Hs h (hext_refl _ _ Hg)) as (w1 & X & Y).
      exists w1. split; auto. apply Y. intros ->. destruct (Hw _ X) as (s1 & A & <-). auto.
    - rewrite Hr in Ht. inversion Ht; subst. left. auto. }
  constructor; auto.
  - intros u. destruct (Nat.eq_dec u t) as [->|Hne].
    + rewrite tset_same. simpl. apply tset_same.
    + rewrite tset_other by auto. apply (keep_thread s); auto. simpl. apply tset_other; auto.
  - intros u j. destruct (Nat.eq_dec u t) as [->|Hne]; [rewrite tset_same; discriminate|rewrite tset_other by auto; apply Hb].
  - intros u v j. destruct (Nat.eq_dec u t) as [->|Hne]; [rewrite tset_same; discriminate|rewrite tset_other by auto].
    destruct (Nat.eq_dec v t) as [->|Hne2]; [rewrite tset_same; discriminate|rewrite tset_other by auto; eauto].
  - intros st l Hl1 Ho.
    assert (Est : st t = Idle).
    { pose proof (Ho t) as Hot. rewrite tset_same in Hot. destruct Hot as [E|(o' & r' & B & _)]; [auto|discriminate]. }
    eapply compat_ext; [apply (compat_ret full tr (contents (wm w)) (tset st t (Done o r)) t o r); [|apply tset_same]|intros k v; tauto|].
    + apply (Hl _ (t :: l)).
      * intros u. destruct (Nat.eq_dec u t) as [->|Hne]; [simpl; auto|rewrite tset_other by auto].
        destruct (Hl1 u) as [|E]; [simpl; auto|]. rewrite tset_other in E by auto. auto.
      * intros u. destruct (Nat.eq_dec u t) as [->|Hne].
        -- rewrite tset_same. auto.
        -- rewrite tset_other by auto. specialize (Ho u). rewrite tset_other in Ho by auto. exact Ho.
    + intros u. unfold tset. destruct (u =? t) eqn:Eu; auto. apply Nat.eqb_eq in Eu. subst u. auto.
Qed.

(** What a step does to the stored pairs. *)
Definition step_spec (o : op) (A A' : pairs) (p' : prog resp) : Prop :=
  same A A' \/ exists r, p' = Ret r /\ forall full, effect full o A A' r.

Lemma step_all full tr s ss w g t o p : ginv full tr s ss w g -> running s t = Some (o, p) ->
  (forall r, p <> Ret r) ->
  let s' := {| sm := fst (pstep (sm s) p); running := tset (running s) t (Some (o, snd (pstep (sm s) p))) |} in
  step_spec o (contents (sm s)) (contents (sm s')) (snd (pstep (sm s) p)) /\
  exists w' g', ginv full (EStep t :: tr) s' (s' :: ss) w' g' /\ guar (own_of (g t)) w w' /\ (w' = w \/ hits (sm s) p) /\
    (forall u, u <> t -> own_of (g' u) = own_of (g u)) /\
    (forall n k, p = NewNode n k -> own_of (g' t) = Some (nid (wm w)) /\ ~ pub w' (nid (wm w))) /\
    ((forall n k, p <> NewNode n k) -> own_of (g' t) = None \/ loads p /\ own_of (g' t) = own_of (g t)) /\
    (forall u, u <> t -> g' u = g u \/ g' u = push w' (g u)) /\
    match g t, g' t with
    | TRun o1 _ h, TRun o2 _ h' => o2 = o1 /\ (h' = h \/ h' = w' :: h)
    | TRun o1 _ _, TFin o2 r => o2 = o1 /\ o1 = o /\ forall f, effect f o (contents (sm s)) (contents (sm s')) r
    | _, _ => False
    end.
Proof.
  intros [Hm Hok Ht Hb Hu Hl] Hr Hnr s'. pose proof (Ht t) as Htt.
  destruct (g t) as [|o' own h|o' r] eqn:Eg; simpl in Htt; [congruence| |].
  2:{ rewrite Hr in Htt. inversion Htt; subst. exfalso; eapply Hnr; eauto. }
  destruct Htt as (p0 & E & Hs & Hg & Hn & Hw). rewrite Hr in E. inversion E; subst o' p0. clear E.
  assert (Eown : own_of (g t) = own) by (rewrite Eg; auto).
  destruct (thread_step (act o) own p (done o) h Hg Hs Hnr) as (Hnid & Hcase).
  rewrite Hn, Hm in Hnid, Hcase.
  destruct Hcase as [(Em & own' & Hown & Hs')|[(w' & own' & Em & Hgu & Hhit & Hsm & Hown & Hnew & Hold & Hs')|(w' & a & Em & Hgu & Hhit & Ep & Ha & Hnn)]].
  - (* no memory change *)
    split; [left; simpl; rewrite Em; intros k v; tauto|].
    exists w, (tset g t (TRun o own' h)).
    split; [|split; [constructor; [auto|apply le_refl|auto]|split; [auto|split; [intros u Hu'; rewrite tset_other by auto; auto|split; [|split; [|split]]]]]].
    2:{ intros n k ->. simpl in Em. apply (f_equal nid) in Em. simpl in Em. lia. }
    2:{ intros _. rewrite tset_same. simpl. destruct Hown as [[-> Hl']| ->]; auto. }
    2:{ intros u Hu'. rewrite tset_other by auto. auto. }
    2:{ rewrite tset_same. auto. }
    assert (Hown' : own' = own \/ own' = None) by tauto. clear Hown. rename Hown' into Hown.
    constructor; auto.
    + simpl. congruence.
    + intros u. destruct (Nat.eq_dec u t) as [->|Hne].
      * rewrite tset_same. simpl. eexists. rewrite tset_same. split; [reflexivity|]. split; [exact Hs'|]. split; auto. split; auto.
        intros w1 Hw1. destruct (Hw _ Hw1) as (s1 & A & B). exists s1. split; [right|]; auto.
      * rewrite tset_other by auto. apply (keep_thread s); auto. simpl. apply tset_other; auto.
    + intros u j. destruct (Nat.eq_dec u t) as [->|Hne]; [rewrite tset_same|rewrite tset_other by auto; apply Hb].
      simpl. destruct Hown as [->| ->]; [|discriminate]. intros Ej. apply (Hb t). rewrite Eg. auto.
    + intros u v j. destruct (Nat.eq_dec u t) as [->|Hne], (Nat.eq_dec v t) as [->|Hne2]; auto;
        rewrite ?tset_same; rewrite ?tset_other by auto; simpl; eauto.
      * destruct Hown as [->| ->]; [|discriminate]. intros A B. apply (Hu t v j); [rewrite Eg; auto|auto].
      * destruct Hown as [->| ->]; [|discriminate]. intros A B. apply (Hu u t j); [auto|rewrite Eg; auto].
    + intros st l Hl1 Ho.
      assert (He : forall u, base (tset g t (TRun o own' h) u) = base (g u)).
      { intros u. unfold tset. destruct (u =? t) eqn:Eu; auto. apply Nat.eqb_eq in Eu. subst u. rewrite Eg. auto. }
      assert (Hc : compat full tr (contents (wm w)) st).
      { apply (Hl st l).
        - intros u. rewrite <- He. auto.
        - intros u. specialize (Ho u). unfold tset in Ho. destruct (u =? t) eqn:Eu; auto. apply Nat.eqb_eq in Eu. subst u.
          rewrite Eg. exact Ho. }
      exact Hc.
  - (* a step that keeps the pairs *)
    split; [left; exact Hsm|].
    exists w', (tset (fun u => push w' (g u)) t (TRun o own' (w' :: h))).
    split; [|split; [exact Hgu|split; [right; exact Hhit|split; [intros u Hu'; rewrite tset_other by auto; destruct (g u); auto|split; [|split; [|split]]]]]].
    2:{ intros n k E. rewrite tset_same. simpl. rewrite Hm. eauto. }
    2:{ intros E. rewrite tset_same. simpl. auto. }
    2:{ intros u Hu'. rewrite tset_other by auto. auto. }
    2:{ rewrite tset_same. auto. }
    constructor.
    + exact Em.
    + apply Hgu.
    + intros u. destruct (Nat.eq_dec u t) as [->|Hne].
      * rewrite tset_same. simpl. eexists. rewrite tset_same. split; [reflexivity|]. split; [exact Hs'|].
        split; [eapply hgood_cons; [exact Hg|rewrite Hn; exact Hgu]|]. split; auto.
        intros w1 [<-|Hw1]; [exists s'; split; [left; auto|simpl; auto]|]. destruct (Hw _ Hw1) as (s1 & A & B). exists s1. split; [right|]; auto.
      * rewrite tset_other by auto. eapply (push_thread s); [apply Ht|exact Hgu|simpl; auto|simpl; apply tset_other; auto|].
        intros j Ej. split; [|eapply Hb; eauto]. intros Eo. apply Hne. eapply Hu; [exact Ej|rewrite Eg; exact Eo].
    + intros u j. rewrite Em. destruct (Nat.eq_dec u t) as [->|Hne]; [rewrite tset_same|rewrite tset_other by auto].
      * simpl. destruct Hown as [->|[-> Hid]]; [discriminate|]. intros Ej. inversion Ej; subst. lia.
      * intros Ej. assert (Ej' : own_of (g u) = Some j) by (destruct (g u); auto). apply Hb in Ej'. rewrite Hm in Ej'. lia.
    + assert (Hfr : forall u j, own_of (push w' (g u)) = Some j -> own_of (g u) = Some j) by (intros u j; destruct (g u); auto).
      intros u v j. destruct (Nat.eq_dec u t) as [->|Hne], (Nat.eq_dec v t) as [->|Hne2]; auto;
        rewrite ?tset_same; rewrite ?tset_other by auto; simpl; eauto.
      * destruct Hown as [->|[-> Hid]]; [discriminate|]. intros A B. inversion A; subst j. apply Hfr, Hb in B. rewrite Hm in B. lia.
      * destruct Hown as [->|[-> Hid]]; [discriminate|]. intros A B. inversion B; subst j. apply Hfr, Hb in A. rewrite Hm in A. lia.
    + intros st l Hl1 Ho.
      assert (Hc : compat full tr (contents (wm w')) st); [|exact Hc].
      apply (lin_push full tr g w') with (l := l).
      * intros st1 l1 X Y. eapply compat_ext; [apply (Hl st1 l1 X Y)| |auto]. rewrite Hm, Em. exact Hsm.
      * intros u. destruct (Hl1 u) as [|E]; auto. right. rewrite E. unfold tset. destruct (u =? t) eqn:Eu.
        -- apply Nat.eqb_eq in Eu. subst u. rewrite Eg. auto.
        -- apply push_base.
      * intros u. specialize (Ho u). unfold tset in Ho. destruct (u =? t) eqn:Eu; auto. apply Nat.eqb_eq in Eu. subst u.
        rewrite Eg. exact Ho.
  - (* the operation takes effect *)
    split; [right; exists a; split; auto; simpl; rewrite <- Em; intros f; specialize (Ha f); rewrite Hm in Ha; exact Ha|].
    exists w', (tset (fun u => push w' (g u)) t (TFin o a)).
    split; [|split; [exact Hgu|split; [right; exact Hhit|split; [intros u Hu'; rewrite tset_other by auto; destruct (g u); auto|split; [|split; [|split]]]]]].
    2:{ intros n k E. destruct (Hnn _ _ E). }
    2:{ intros E. rewrite tset_same. simpl. auto. }
    2:{ intros u Hu'. rewrite tset_other by auto. auto. }
    2:{ rewrite tset_same. split; auto. split; auto. simpl. rewrite <- Em. intros f. specialize (Ha f). rewrite Hm in Ha. exact Ha. }
    constructor.
    + exact Em.
    + apply Hgu.
    + intros u. destruct (Nat.eq_dec u t) as [->|Hne].
      * rewrite tset_same. simpl. rewrite tset_same. congruence.
      * rewrite tset_other by auto. eapply (push_thread s); [apply Ht|exact Hgu|simpl; auto|simpl; apply tset_other; auto|].
        intros j Ej. split; [|eapply Hb; eauto]. intros Eo. apply Hne. eapply Hu; [exact Ej|rewrite Eg; exact Eo].
    + intros u j. rewrite Em. destruct (Nat.eq_dec u t) as [->|Hne]; [rewrite tset_same; discriminate|rewrite tset_other by auto].
      intros Ej. assert (Ej' : own_of (g u) = Some j) by (destruct (g u); auto). apply Hb in Ej'. rewrite Hm in Ej'. lia.
    + assert (Hfr : forall u j, own_of (push w' (g u)) = Some j -> own_of (g u) = Some j) by (intros u j; destruct (g u); auto).
      intros u v j. destruct (Nat.eq_dec u t) as [->|Hne], (Nat.eq_dec v t) as [->|Hne2]; auto;
        rewrite ?tset_same; rewrite ?tset_other by auto; simpl; eauto; discriminate.
    + set (g1 := tset g t (TFin o a)).
      assert (Hg1 : forall u, tset (fun u => push w' (g u)) t (TFin o a) u = push w' (g1 u)).
      { intros u. unfold g1, tset. destruct (u =? t); auto. }
      intros st l Hl1 Ho.
      assert (Hc : compat full tr (contents (wm w')) st); [|exact Hc].
      apply (lin_push full tr g1 w') with (l := l).
      * intros st1 l1 X Y.
        assert (Est : st1 t = Done o a).
        { specialize (Y t). unfold g1 in Y. rewrite tset_same in Y. destruct Y as [->|(o1 & r1 & B & _)]; [auto|discriminate]. }
        eapply compat_ext; [apply (compat_lin full tr (contents (wm w)) (contents (wm w')) (tset st1 t (Called o)) t o a)|intros k v; tauto|].
        -- apply (Hl _ (t :: l1)).
           ++ intros u. destruct (Nat.eq_dec u t) as [->|Hne]; [simpl; auto|rewrite tset_other by auto].
              destruct (X u) as [|E]; [simpl; auto|]. unfold g1 in E. rewrite tset_other in E by auto. auto.
           ++ intros u. destruct (Nat.eq_dec u t) as [->|Hne].
              ** rewrite tset_same, Eg. left. auto.
              ** rewrite tset_other by auto. specialize (Y u). unfold g1 in Y. rewrite tset_other in Y by auto. exact Y.
        -- apply tset_same.
        -- apply Ha.
        -- intros u. unfold tset. destruct (u =? t) eqn:Eu; auto. apply Nat.eqb_eq in Eu. subst u. auto.
      * intros u. destruct (Hl1 u) as [|E]; auto. right. rewrite E, Hg1. apply push_base.
      * intros u. specialize (Ho u). rewrite Hg1 in Ho. exact Ho.
Qed.

Lemma step_full full tr s ss w g t o p : ginv full tr s ss w g -> running s t = Some (o, p) ->
  (forall r, p <> Ret r) ->
  let s' := {| sm := fst (pstep (sm s) p); running := tset (running s) t (Some (o, snd (pstep (sm s) p))) |} in
  step_spec o (contents (sm s)) (contents (sm s')) (snd (pstep (sm s) p)) /\
  exists w' g', ginv full (EStep t :: tr) s' (s' :: ss) w' g' /\ guar (own_of (g t)) w w' /\ (w' = w \/ hits (sm s) p) /\
    (forall u, u <> t -> own_of (g' u) = own_of (g u)) /\
    (forall n k, p = NewNode n k -> own_of (g' t) = Some (nid (wm w)) /\ ~ pub w' (nid (wm w))) /\
    ((forall n k, p <> NewNode n k) -> own_of (g' t) = None \/ loads p /\ own_of (g' t) = own_of (g t)).
Proof.
  intros Hi Hr Hn s'. destruct (step_all full tr s ss w g t o p Hi Hr Hn) as (Hs & w' & g' & H1 & H2 & H3 & H4 & H5 & H6 & _).
  split; [exact Hs|]. exists w', g'. auto 10.
Qed.

Lemma ginv_init full : ginv full [] sinit [sinit] winit (fun _ => TIdle).
Proof.
  constructor; simpl; auto; try discriminate.
  - apply wok_init.
  - intros st l _ Ho. exists [], (fun _ _ => False), (fun _ => Idle). split; [constructor|]. split; auto.
    split; [intros k v; split; [apply contents_init|tauto]|].
    intros t. destruct (Ho t) as [->|(o & r & B & _)]; [auto|discriminate].
Qed.
Lemma exec_head tr ss s : exec tr ss s -> In s ss.
Proof. destruct 1; simpl; auto. Qed.

Lemma exec_began tr ss s : exec tr ss s -> forall t o p, running s t = Some (o, p) -> In (ECall t o) tr.
Proof.
  induction 1 as [|tr ss s e s' Hx IH Hs]; intros t o p H; [discriminate|].
  inversion Hs as [sx u o' fuel Hr|sx u o' q Hr H1 H2|sx u o' r Hr]; subst sx e s'; simpl in H; unfold tset in H; destruct (t =? u) eqn:E; try (right; eapply IH; exact H);
    apply Nat.eqb_eq in E; subst u.
  - injection H as <- _. left. reflexivity.
  - injection H as <- _. right. eapply IH; eauto.
  - discriminate.
Qed.
Lemma exec_ginv_at full tr ss s : exec tr ss s ->
  (full = true -> forall s' t o, In s' ss -> In (ECall t o) tr -> exact_at o (sm s')) ->
  exists w g, ginv full tr s ss w g.
Proof.
  induction 1 as [|tr ss s e s' Hx IH Hst]; intros Hcl.
  - exists winit, (fun _ => TIdle). apply ginv_init.
  - destruct IH as (w & g & Hi); [intros Hf s1 t o Hs1 Ho; apply (Hcl Hf s1 t o); right; auto|].
    inversion Hst; subst.
    + eexists _, _. eapply step_call; eauto. eapply exec_head; eauto.
    + destruct (step_full _ _ _ _ _ _ _ _ _ Hi H H0) as (_ & w' & g' & Hi' & _). eauto.
    + eexists _, _. eapply step_ret; eauto. intros Hf s1 Hs1. apply (Hcl Hf s1 t o); right; [auto|eapply exec_began; eauto].
Qed.
Lemma clean_exact m o : leaves_clean m -> exact_at o m.
Proof. intros H. destruct o; simpl; auto. intros i c Hi E _. eapply H; eauto. Qed.
Lemma exec_ginv full tr ss s : exec tr ss s ->
  (full = true -> forall s', In s' ss -> leaves_clean (sm s')) ->
  exists w g, ginv full tr s ss w g.
Proof. intros Hx Hc. apply (exec_ginv_at full tr ss s Hx). intros Hf s' t o Hs _. apply clean_exact. auto. Qed.

Lemma linearizable_at full tr ss s : exec tr ss s ->
  (full = true -> forall s' t o, In s' ss -> In (ECall t o) tr -> exact_at o (sm s')) -> linearizable full tr (sm s).
Proof.
  intros Hx Hcl. destruct (exec_ginv_at _ _ _ _ Hx Hcl) as (w & g & [Hm Hok Ht Hb Hu Hl]).
  destruct (Hl (fun t => base (g t)) []) as (atr & A & st & X & V & S & _).
  - auto.
  - intros t. left. auto.
  - exists atr, A, st. split; auto. split; auto. rewrite <- Hm. apply same_sym; auto.
Qed.
Lemma linearizable_ok full tr ss s : exec tr ss s ->
  (full = true -> forall s', In s' ss -> leaves_clean (sm s')) -> linearizable full tr (sm s).
Proof. intros Hx Hc. apply (linearizable_at full tr ss s Hx). intros Hf s' t o Hs _. apply clean_exact. auto. Qed.
Lemma step_spec_ok tr ss s t o p s' : exec tr ss s -> running s t = Some (o, p) -> sstep s (EStep t) s' ->
  same (contents (sm s)) (contents (sm s')) \/
  exists r, running s' t = Some (o, Ret r) /\ forall full, effect full o (contents (sm s)) (contents (sm s')) r.
Proof.
  intros Hx Hr Hst. destruct (exec_ginv false _ _ _ Hx) as (w & g & Hi); [discriminate|].
  inversion Hst; subst. rewrite H0 in Hr. inversion Hr; subst.
  destruct (step_full _ _ _ _ _ _ _ _ _ Hi H0 H1) as [[S|(r & E & F)] _]; [left; exact S|right].
  exists r. simpl. rewrite tset_same, E. auto.
Qed.
Lemma exec_wok tr ss s : exec tr ss s -> exists w, wm w = sm s /\ wok w.
Proof.
  intros Hx. destruct (exec_ginv false _ _ _ Hx) as (w & g & Hi); [discriminate|].
  exists w. split; apply Hi.
Qed.
End TreeLin.
