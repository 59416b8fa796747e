(** When a trace has no explanation by the atomic object: a GetValue that
    misses a pair whose Insert had returned before it was called and that
    nobody ever deletes. *)
From Coq Require Import List Arith Bool.
From Verif Require Import Base Leaf LeafSpec Inner Tree TreeSpec.
Import ListNotations.

Section TreeNot.
Context {P : Params}.

Definition calls (t : nat) (l : list vis) : Prop := exists o, In (VCall t o) l.

Record naive (full : bool) (k : K) (v : V) (atr : list aevent) (A : pairs) (st : nat -> status) : Prop := {
  n_called : forall t o, st t = Called o -> In (VCall t o) (avisible atr);
  n_done : forall t o r, st t = Done o r -> In (VCall t o) (avisible atr);
  n_in : (forall u, ~ In (VCall u (OpDel k v)) (avisible atr)) ->
    forall t, In (VRet t (OpIns k v) (RBool true)) (avisible atr) \/ st t = Done (OpIns k v) (RBool true) -> A k v
}.

Lemma effect_keeps full o A A' r k v : effect full o A A' r -> o <> OpDel k v -> A k v -> A' k v.
Proof.
  intros H Ho Ha. destruct o as [k1 v1|k1 v1|k1 v1 pred|k1|k1|k1|], r as [[]|[] []|l|low items high]; simpl in H; try tauto.
  - apply H. auto.
  - apply H. auto.
  - apply H. split; auto. intros (-> & ->). apply Ho; auto.
  - apply H. auto.
  - apply H. auto.
  - apply H. auto.
  - apply H. auto.
  - destruct H as (_ & H). apply H. auto.
  - apply H. auto.
  - apply H. auto.
  - apply H. auto.
Qed.

Lemma avis_cons e atr : avisible (e :: atr) = match e with ACall t o => [VCall t o] | ARet t o r => [VRet t o r] | ALin _ => [] end ++ avisible atr.
Proof. reflexivity. Qed.
Lemma tset_same' {A} (f : nat -> A) t x : tset f t x t = x.
Proof. unfold tset. rewrite Nat.eqb_refl. auto. Qed.
Lemma tset_cases {A} (f : nat -> A) t x u : (u = t /\ tset f t x u = x) \/ (u <> t /\ tset f t x u = f u).
Proof. unfold tset. destruct (Nat.eqb_spec u t); auto. Qed.

Lemma aexec_naive full k v atr a : aexec full atr a -> naive full k v atr (fst a) (snd a).
Proof.
  induction 1 as [|tr a e a' H IH Hs].
  - constructor; simpl; try discriminate. intros _ t [[]|]; discriminate.
  - destruct IH as [Hc Hd Hi]. inversion Hs; subst; simpl in *.
    + constructor; rewrite avis_cons; simpl.
      * intros u o' E. destruct (tset_cases st t (Called o) u) as [(-> & F)|(_ & F)]; rewrite F in E; [inversion E; auto|right; auto].
      * intros u o' r E. destruct (tset_cases st t (Called o) u) as [(-> & F)|(_ & F)]; rewrite F in E; [discriminate|right; eauto].
      * intros Hn u E. apply (Hi (fun w Hw => Hn w (or_intror Hw)) u).
        destruct E as [[E|E]|E]; [discriminate|auto|].
        destruct (tset_cases st t (Called o) u) as [(-> & F)|(_ & F)]; rewrite F in E; [discriminate|auto].
    + constructor; rewrite avis_cons; simpl.
      * intros u o' E. destruct (tset_cases st t (Done o r) u) as [(-> & F)|(_ & F)]; rewrite F in E; [discriminate|auto].
      * intros u o' r' E. destruct (tset_cases st t (Done o r) u) as [(-> & F)|(_ & F)]; rewrite F in E; [inversion E; subst; auto|eauto].
      * intros Hn u E. assert (Ho : o <> OpDel k v). { intros ->. apply (Hn t). apply Hc; auto. }
        assert (K' : forall u', In (VRet u' (OpIns k v) (RBool true)) (avisible tr) \/ st u' = Done (OpIns k v) (RBool true) -> A' k v).
        { intros u' G. eapply effect_keeps; eauto. }
        destruct E as [E|E]; [eapply K'; eauto|].
        destruct (tset_cases st t (Done o r) u) as [(-> & F)|(_ & F)]; rewrite F in E; [|eapply K'; eauto].
        inversion E; subst. match goal with H : effect _ _ _ _ _ |- _ => apply H end. auto.
    + constructor; rewrite avis_cons; simpl.
      * intros u o' E. destruct (tset_cases st t Idle u) as [(-> & F)|(_ & F)]; rewrite F in E; [discriminate|right; auto].
      * intros u o' r' E. destruct (tset_cases st t Idle u) as [(-> & F)|(_ & F)]; rewrite F in E; [discriminate|right; eauto].
      * intros Hn u E. assert (Hn' : forall w, ~ In (VCall w (OpDel k v)) (avisible tr)) by (intros w Hw; apply (Hn w); auto).
        destruct E as [[E|E]|E].
        -- inversion E; subst. eapply Hi; eauto.
        -- apply (Hi Hn' u). auto.
        -- destruct (tset_cases st t Idle u) as [(-> & F)|(_ & F)]; rewrite F in E; [discriminate|]. apply (Hi Hn' u). auto.
Qed.

(** [st t] after a GetValue of [k] took effect with [v] present. *)
Lemma aexec_get k v t (tr1 : list vis) u :
  In (VRet u (OpIns k v) (RBool true)) tr1 ->
  (forall w, ~ In (VCall w (OpDel k v)) tr1) -> (forall o, ~ In (VCall t o) tr1) ->
  forall atr a, aexec true atr a ->
  (exists l1, l1 ++ avisible atr = VRet t (OpGet k) (RVals []) :: VCall t (OpGet k) :: tr1) ->
  snd a t <> Done (OpGet k) (RVals []).
Proof.
  intros Hins Hdel Hnew atr a H. induction H as [|tr a e a' H IH Hs]; intros (l1 & El).
  - simpl. discriminate.
  - assert (Hsuf : exists l2, l2 ++ avisible tr = VRet t (OpGet k) (RVals []) :: VCall t (OpGet k) :: tr1).
    { rewrite avis_cons, app_assoc in El. eauto. }
    specialize (IH Hsuf). pose proof (aexec_naive true k v _ _ H) as [Hc Hd Hi].
    inversion Hs; subst; simpl in *.
    + intros E. destruct (tset_cases st t0 (Called o) t) as [(-> & F)|(_ & F)]; rewrite F in E; [discriminate|auto].
    + intros E. destruct (tset_cases st t0 (Done o r) t) as [(-> & F)|(_ & F)]; rewrite F in E; [|auto].
      inversion E; subst.
      pose proof (Hc _ _ H0) as Hcall. destruct Hsuf as (l2 & E2).
      assert (Hp : avisible tr = VCall t0 (OpGet k) :: tr1 \/ avisible tr = VRet t0 (OpGet k) (RVals []) :: VCall t0 (OpGet k) :: tr1).
      { destruct l2 as [|x [|y l2]]; simpl in E2; auto.
        - inversion E2; auto.
        - inversion E2; subst. exfalso. eapply Hnew. apply in_or_app. right. exact Hcall. }
      assert (Ha : A k v).
      { apply (Hi) with (t := u).
        - intros w Hw. destruct Hp as [Hp|Hp]; rewrite Hp in Hw; simpl in Hw.
          + destruct Hw as [Hw|Hw]; [discriminate|]. eapply Hdel; eauto.
          + destruct Hw as [Hw|[Hw|Hw]]; try discriminate. eapply Hdel; eauto.
        - left. destruct Hp as [Hp|Hp]; rewrite Hp; simpl; auto. }
      simpl in *. match goal with H : ((true = true -> _) /\ _) /\ _ |- _ => destruct H as ((G & _) & _) end.
      destruct (G eq_refl) as (_ & G'). apply G' in Ha. destruct Ha.
    + intros E. destruct (tset_cases st t0 Idle t) as [(-> & F)|(_ & F)]; rewrite F in E; [discriminate|auto].
Qed.

Lemma stale_get k v t u (tr1 : list vis) tr m :
  visible tr = VRet t (OpGet k) (RVals []) :: VCall t (OpGet k) :: tr1 ->
  In (VRet u (OpIns k v) (RBool true)) tr1 ->
  (forall w, ~ In (VCall w (OpDel k v)) tr1) -> (forall o, ~ In (VCall t o) tr1) ->
  ~ linearizable true tr m.
Proof.
  intros Hv Hins Hdel Hnew (atr & A & st & Hx & Ev & _). rewrite Hv in Ev.
  assert (G : forall atr a, aexec true atr a ->
    avisible atr = VRet t (OpGet k) (RVals []) :: VCall t (OpGet k) :: tr1 -> False).
  { clear atr A st Hx Ev. induction 1 as [|tr2 a e a' H IH Hs]; intros E; [discriminate|].
    rewrite avis_cons in E. inversion Hs; subst; simpl in E.
    - discriminate.
    - auto.
    - injection E as -> -> -> E. match goal with G : st _ = Done _ _ |- _ => revert G end.
      apply (aexec_get _ _ _ _ _ Hins Hdel Hnew _ _ H).
      exists [VRet t (OpGet k) (RVals [])]. simpl. rewrite E. auto. }
  eapply G; eauto.
Qed.
End TreeNot.
