(** Executions of the index carried over to the index with its epoch manager:
    lemmas for the witness of C54 with an operation that searches forward. *)
From Coq Require Import NArith List Arith Bool Lia.
From Verif Require Import Base Leaf LeafSpec Inner InnerSpec Tree TreeSpec TreeRun TreeFast MarkerSpec GarbageSpec TreeInv Marker Garbage LinkSpec Links LinkProg LinkExec FateSpec Fate ReleaseSpec ReleasePlay ReleaseExec.
From Verif Require Epoch EpochProofs.
Import ListNotations.

(** * AddGarbageNode returns *)
Section Ep.
Variables n th : nat.
Inductive steps (t : nat) (e : Epoch.st) : Epoch.st -> Prop :=
| st_none : steps t e e
| st_more e1 e2 : Epoch.step n th (Epoch.AStep t) e = Some e1 -> steps t e1 e2 -> steps t e e2.
Lemma steps_app t e1 e2 e3 : steps t e1 e2 -> steps t e2 e3 -> steps t e1 e3.
Proof. induction 1; auto. intros H'. econstructor; eauto. Qed.
Definition aliven (l : list Epoch.cell) : nat := length (filter Epoch.alive l).
Lemma aliven_set l : forall p c c', nth_error l p = Some c -> Epoch.alive c = true -> Epoch.alive c' = false -> S (aliven (Epoch.set_nth l p c')) = aliven l.
Proof.
  unfold aliven. induction l as [|a l IH]; intros [|p] c c' E A B; simpl in *; try discriminate.
  - injection E as ->. rewrite A, B. reflexivity.
  - specialize (IH p c c' E A B). destruct (Epoch.alive a); simpl; auto.
Qed.
Lemma gc_iter_true s o m s' : Epoch.gc_iter s o m = (s', true) -> S (aliven (Epoch.cells s')) = aliven (Epoch.cells s).
Proof.
  unfold Epoch.gc_iter. destruct (Epoch.hdr (Epoch.slots s o)) as [p|]; [|discriminate]. destruct (nth_error (Epoch.cells s) p) as [c|] eqn:E; [|discriminate].
  destruct (Epoch.alive c) eqn:A; [|discriminate]. cbn [negb]. destruct (Epoch.elt (Epoch.de c) m); [|discriminate]. intros H.
  assert (X : Epoch.cells s' = Epoch.set_nth (Epoch.cells s) p {| Epoch.de := Epoch.de c; Epoch.gnode := Epoch.gnode c; Epoch.nx := Epoch.nx c; Epoch.alive := false |}).
  { destruct (Nat.eqb _ 0); injection H as <-; reflexivity. }
  rewrite X. eapply aliven_set; eauto.
Qed.
Lemma gc_iter_unl s o m : Epoch.unl (fst (Epoch.gc_iter s o m)) = Epoch.unl s.
Proof.
  unfold Epoch.gc_iter. destruct (Epoch.hdr (Epoch.slots s o)); [|reflexivity]. destruct (nth_error (Epoch.cells s) n0); [|reflexivity]. destruct (negb (Epoch.alive c)); [reflexivity|].
  destruct (Epoch.elt (Epoch.de c) m); [|reflexivity]. destruct (Nat.eqb _ _); reflexivity.
Qed.
(** Thread [t] has come back from AddGarbageNode; nothing else has happened. *)
Definition back (t : nat) (e e' : Epoch.st) : Prop :=
  steps t e e' /\ Epoch.pcs e' t = Epoch.Running /\ (forall u, u <> t -> Epoch.pcs e' u = Epoch.pcs e u) /\ Epoch.unl e' = Epoch.unl e.
Lemma back_more t e e1 e' : Epoch.step n th (Epoch.AStep t) e = Some e1 -> (forall u, u <> t -> Epoch.pcs e1 u = Epoch.pcs e u) -> Epoch.unl e1 = Epoch.unl e -> back t e1 e' -> back t e e'.
Proof. intros E Hp Hu (A & B & C & D). split; [econstructor; eauto|]. split; auto. split; [|congruence]. intros u Hne. rewrite C, Hp; auto. Qed.
Lemma back_running t e : Epoch.pcs e t = Epoch.Running -> back t e e.
Proof. intros E. split; [constructor|]. auto. Qed.
Lemma free_back t m : forall k e, aliven (Epoch.cells e) = k -> Epoch.pcs e t = Epoch.GCFree m -> exists e', back t e e'.
Proof.
  induction k as [k IH] using lt_wf_ind. intros e Hk Hp. assert (Es : Epoch.step n th (Epoch.AStep t) e = let '(s', more) := Epoch.gc_iter e t m in Some (if more then s' else Epoch.set_pc s' t Epoch.Running)) by (cbn [Epoch.step]; rewrite Hp; reflexivity).
  pose proof (gc_iter_pcs e t m) as G1. pose proof (gc_iter_unl e t m) as G2. destruct (Epoch.gc_iter e t m) as [s' more] eqn:Eg. cbn [fst] in *. destruct more.
  - pose proof (gc_iter_true _ _ _ _ Eg) as Hl. destruct (IH (aliven (Epoch.cells s'))) with (e := s') as (e' & He); [lia|auto|rewrite G1; auto|]. exists e'. eapply back_more; eauto. intros u _. rewrite G1. auto.
  - eexists. eapply back_more; [exact Es| |cbn; exact G2|apply back_running; cbn; unfold Epoch.upd; rewrite Nat.eqb_refl; reflexivity].
    intros u Hu. cbn. unfold Epoch.upd. destruct (Nat.eqb_spec u t); [contradiction|]. rewrite G1. auto.
Qed.
Lemma sum_back t : forall k i m e, n - i = k -> Epoch.pcs e t = Epoch.GCSum i m -> exists e', back t e e'.
Proof.
  induction k as [|k IH]; intros i m e Hk Hp.
  - assert (Es : Epoch.step n th (Epoch.AStep t) e = Some (Epoch.set_pc e t (Epoch.GCFree m))).
    { cbn [Epoch.step]. rewrite Hp. destruct (Nat.ltb_spec i n); [lia|reflexivity]. }
    destruct (free_back t m _ (Epoch.set_pc e t (Epoch.GCFree m)) eq_refl) as (e' & He); [cbn; unfold Epoch.upd; rewrite Nat.eqb_refl; reflexivity|].
    exists e'. eapply back_more; [exact Es| |reflexivity|exact He]. intros u Hu. cbn. unfold Epoch.upd. destruct (Nat.eqb_spec u t); [contradiction|auto].
  - assert (Es : Epoch.step n th (Epoch.AStep t) e = Some (Epoch.set_pc e t (Epoch.GCSum (S i) (Epoch.emin m (Epoch.lae (Epoch.slots e i)))))).
    { cbn [Epoch.step]. rewrite Hp. destruct (Nat.ltb_spec i n); [reflexivity|lia]. }
    destruct (IH (S i) (Epoch.emin m (Epoch.lae (Epoch.slots e i))) (Epoch.set_pc e t (Epoch.GCSum (S i) (Epoch.emin m (Epoch.lae (Epoch.slots e i)))))) as (e' & He); [lia|cbn; unfold Epoch.upd; rewrite Nat.eqb_refl; reflexivity|].
    exists e'. eapply back_more; [exact Es| |reflexivity|exact He]. intros u Hu. cbn. unfold Epoch.upd. destruct (Nat.eqb_spec u t); [contradiction|auto].
Qed.
Lemma unlink_back t x e : Epoch.pcs e t = Epoch.Unlinking x -> exists e', back t e e'.
Proof.
  intros Hp. assert (Es : Epoch.step n th (Epoch.AStep t) e = Some (Epoch.add_garbage th e t x)) by (cbn [Epoch.step]; rewrite Hp; reflexivity).
  assert (H : exists p, (p = Epoch.Running \/ p = Epoch.GCSum 0 None) /\ Epoch.pcs (Epoch.add_garbage th e t x) = Epoch.upd (Epoch.pcs e) t p /\ Epoch.unl (Epoch.add_garbage th e t x) = Epoch.unl e).
  { unfold Epoch.add_garbage. exists (if Nat.ltb th (S (Epoch.cnt (Epoch.slots e t))) then Epoch.GCSum 0 None else Epoch.Running). split; [destruct (Nat.ltb _ _); auto|].
    destruct (Epoch.last (Epoch.slots e t)) as [p|]; [destruct (nth_error (Epoch.cells e) p) as [c|]; [destruct (Epoch.alive c)|]|]; auto. }
  destruct H as (p & H1 & H2 & H3). assert (H : exists e', back t (Epoch.add_garbage th e t x) e').
  { destruct H1 as [-> | ->]; [eexists; apply back_running; rewrite H2; unfold Epoch.upd; rewrite Nat.eqb_refl; reflexivity|].
    eapply sum_back; [reflexivity|]. rewrite H2. unfold Epoch.upd. rewrite Nat.eqb_refl. reflexivity. }
  destruct H as (e' & He). exists e'. eapply back_more; eauto. intros u Hu. rewrite H2. unfold Epoch.upd. destruct (Nat.eqb_spec u t); [contradiction|auto].
Qed.
Lemma steps_run t e e' : steps t e e' -> exists acts, e' = Epoch.run n th e acts.
Proof. induction 1 as [|e e1 e2 E _ (acts & IH)]; [exists []; reflexivity|]. exists (Epoch.AStep t :: acts). cbn [Epoch.run]. rewrite E. auto. Qed.
(** What is released stays released. *)
Lemma freed_mono a e e' : Epoch.step n th a e = Some e' -> forall x, In x (Epoch.freed e) -> In x (Epoch.freed e').
Proof.
  intros E x Hx. destruct a as [|u|u y|u|u|u]; cbn [Epoch.step] in E.
  - injection E as <-. exact Hx.
  - destruct (Nat.ltb u n); [|discriminate]. destruct (Epoch.pcs e u); try discriminate. injection E as <-. exact Hx.
  - destruct (Epoch.pcs e u); try discriminate. destruct (existsb _ _); [discriminate|]. injection E as <-. exact Hx.
  - destruct (Epoch.pcs e u); try discriminate. injection E as <-. exact Hx.
  - destruct (Nat.ltb u n); [|discriminate]. destruct (Epoch.pcs e u); try discriminate. injection E as <-. exact Hx.
  - destruct (Epoch.pcs e u) as [|e0| |y|i m|m|e0]; try discriminate.
    + injection E as <-. exact Hx.
    + injection E as <-. unfold Epoch.add_garbage. destruct (Epoch.last (Epoch.slots e u)) as [p|]; [destruct (nth_error (Epoch.cells e) p) as [c|]; [destruct (Epoch.alive c)|]|]; exact Hx.
    + destruct (Nat.ltb i n); injection E as <-; exact Hx.
    + assert (H : In x (Epoch.freed (fst (Epoch.gc_iter e u m)))).
      { unfold Epoch.gc_iter. destruct (Epoch.hdr (Epoch.slots e u)); [|auto]. destruct (nth_error (Epoch.cells e) n0); [|auto]. destruct (negb (Epoch.alive c)); [auto|]. destruct (Epoch.elt (Epoch.de c) m); [|auto]. destruct (Nat.eqb _ _); simpl; auto. }
      destruct (Epoch.gc_iter e u m) as [s1 []]; injection E as <-; exact H.
    + injection E as <-. exact Hx.
Qed.
End Ep.

Section Lift.
Context {P : Params}.
Variables n th : nat.
(** A property that steps other than UpdateThreadLocal keep. *)
Variable Q : wst -> Prop.
Hypothesis HQ : forall w w', Q w -> wstep n th w w' -> (w_e w' = w_e w \/ exists a, Epoch.step n th a (w_e w) = Some (w_e w')) -> Q w'.
Record settled (w : wst) : Prop := {
  s_run : wrun n th (fun _ => True) w;
  s_q : Q w;
  s_pc : forall t, Epoch.pcs (w_e w) t = match running (w_s w) t with Some _ => Epoch.Running | None => Epoch.Idle end;
  s_unl : forall x, In x (map fst (Epoch.unl (w_e w))) <-> x < length (handed (w_f w)) }.
Definition some_run (w : wst) : Prop := wrun n th (fun _ => True) w /\ Q w.
Lemma some_step w w' : some_run w -> wstep n th w w' -> (w_e w' = w_e w \/ exists a, Epoch.step n th a (w_e w) = Some (w_e w')) -> some_run w'.
Proof. intros [A B] Hs He. split; [eapply wr_step; eauto|eapply HQ; eauto]. Qed.
Definition with_e (w : wst) (e : Epoch.st) : wst := {| w_s := w_s w; w_f := w_f w; w_e := e; w_held := w_held w |}.
Lemma some_steps w t e' : steps n th t (w_e w) e' -> some_run w -> some_run (with_e w e').
Proof.
  intros H. remember (w_e w) as e eqn:E. revert w E. induction H as [e|e e1 e2 Es _ IH]; intros w -> Hw.
  - destruct w. exact Hw.
  - apply (IH (with_e w e1)); [reflexivity|]. eapply some_step; [exact Hw|exact (ws_epoch n th w (Epoch.AStep t) e1 I Es)|]. right. exists (Epoch.AStep t). exact Es.
Qed.
Lemma lift_call w t o fuel : settled w -> t < n -> running (w_s w) t = None ->
  exists w', settled w' /\ w_s w' = {| sm := sm (w_s w); running := tset (running (w_s w)) t (Some (o, code fuel o)) |}.
Proof.
  intros [Hr Hq Hp Hu] Ht Hn. pose proof (Hp t) as Hi. rewrite Hn in Hi.
  assert (E1 : Epoch.step n th (Epoch.AInvoke t) (w_e w) = Some {| Epoch.ep := Epoch.ep (w_e w); Epoch.slots := Epoch.slots (w_e w); Epoch.cells := Epoch.cells (w_e w); Epoch.pcs := Epoch.upd (Epoch.pcs (w_e w)) t (Epoch.JoinRead (Epoch.ep (w_e w)));
      Epoch.opno := Epoch.upd (Epoch.opno (w_e w)) t (S (Epoch.opno (w_e w) t)); Epoch.unl := Epoch.unl (w_e w); Epoch.freed := Epoch.freed (w_e w); Epoch.bad := Epoch.bad (w_e w) |}).
  { cbn [Epoch.step]. rewrite Hi. apply Nat.ltb_lt in Ht. rewrite Ht. reflexivity. }
  set (e1 := {| Epoch.ep := _ |}) in E1.
  assert (S1 : some_run (with_e w e1)). { eapply some_step; [split; eauto|exact (ws_epoch n th w (Epoch.AInvoke t) e1 I E1)|]. right. exists (Epoch.AInvoke t). exact E1. }
  assert (E2 : exists e2, Epoch.step n th (Epoch.AStep t) e1 = Some e2 /\ Epoch.pcs e2 t = Epoch.Running /\ (forall u, u <> t -> Epoch.pcs e2 u = Epoch.pcs (w_e w) u) /\ Epoch.unl e2 = Epoch.unl (w_e w)).
  { eexists. split; [cbn [Epoch.step e1 Epoch.pcs]; unfold Epoch.upd at 1; rewrite Nat.eqb_refl; reflexivity|]. cbn [Epoch.set_pc Epoch.set_slot Epoch.pcs Epoch.unl e1]. unfold Epoch.upd. rewrite Nat.eqb_refl. split; auto. split; auto.
    intros u Hne. destruct (Nat.eqb_spec u t); [contradiction|auto]. }
  destruct E2 as (e2 & E2 & P2 & O2 & U2).
  assert (S2 : some_run (with_e w e2)). { apply (some_steps (with_e w e1) t e2); auto. econstructor; [exact E2|constructor]. }
  eexists. split; [|shelve]. destruct (some_step (with_e w e2) _ S2 (ws_tree n th (with_e w e2) (ECall t o) _ e2 P2 (S_call _ t o fuel Hn) (or_introl (conj eq_refl eq_refl)))) as [S3 S4]; [left; reflexivity|].
  constructor; [exact S3|exact S4| |].
  - intros u. cbn [w_e w_s running]. unfold tset. destruct (Nat.eqb_spec u t) as [-> |Hne]; [exact P2|]. rewrite O2; auto.
  - intros x. cbn [w_e w_f]. rewrite U2. apply Hu.
  Unshelve. reflexivity.
Qed.
Lemma lift_ret w t o r : settled w -> running (w_s w) t = Some (o, Ret r) ->
  exists w', settled w' /\ w_s w' = {| sm := sm (w_s w); running := tset (running (w_s w)) t None |}.
Proof.
  intros [Hr Hq Hp Hu] Hn. pose proof (Hp t) as Hi. rewrite Hn in Hi.
  pose proof (some_step w _ (conj Hr Hq) (ws_tree n th w (ERet t o r) _ (w_e w) Hi (S_ret _ t o r Hn) (or_introl (conj eq_refl eq_refl))) (or_introl eq_refl)) as S1. cbn [fate] in S1.
  set (w1 := {| w_s := _ |}) in S1.
  assert (E2 : Epoch.step n th (Epoch.ALeave t) (w_e w1) = Some (Epoch.set_pc (w_e w) t (Epoch.LeaveRead (Epoch.ep (w_e w))))) by (cbn [w1 w_e Epoch.step]; rewrite Hi; reflexivity).
  set (e2 := Epoch.set_pc _ _ _) in E2.
  assert (S2 : some_run {| w_s := w_s w1; w_f := w_f w1; w_e := e2; w_held := drop w1 (Epoch.ALeave t) |}).
  { eapply some_step; [exact S1|apply (ws_epoch n th w1 (Epoch.ALeave t) e2)|]; auto; [cbn; unfold tset; rewrite Nat.eqb_refl; reflexivity|]. right. exists (Epoch.ALeave t). exact E2. }
  set (w2 := {| w_s := w_s w1 |}) in S2.
  assert (E3 : exists e3, Epoch.step n th (Epoch.AStep t) e2 = Some e3 /\ Epoch.pcs e3 t = Epoch.Idle /\ (forall u, u <> t -> Epoch.pcs e3 u = Epoch.pcs (w_e w) u) /\ Epoch.unl e3 = Epoch.unl (w_e w)).
  { eexists. split; [cbn [Epoch.step e2 Epoch.set_pc Epoch.pcs]; unfold Epoch.upd at 1; rewrite Nat.eqb_refl; reflexivity|]. cbn [Epoch.set_pc Epoch.set_slot Epoch.pcs Epoch.unl e2]. unfold Epoch.upd. rewrite Nat.eqb_refl. split; auto. split; auto.
    intros u Hne. destruct (Nat.eqb_spec u t); [contradiction|auto]. }
  destruct E3 as (e3 & E3 & P3 & O3 & U3).
  assert (S3 : some_run (with_e w2 e3)). { apply (some_steps w2 t e3); auto. econstructor; [exact E3|constructor]. }
  exists (with_e w2 e3). split; [|reflexivity]. destruct S3 as [A B]. constructor; auto.
  - intros u. cbn. unfold tset. destruct (Nat.eqb_spec u t) as [-> |Hne]; [exact P3|]. rewrite O3; auto.
  - intros x. cbn. rewrite U3. apply Hu.
Qed.
Lemma entry_one m d : entry m d = [] \/ exists q, entry m d = [q].
Proof. unfold entry. destruct (tab m d); eauto. Qed.
Lemma fate_one s e F : handed (fate s e F) = handed F \/ exists g, handed (fate s e F) = g :: handed F.
Proof.
  destruct e as [t o|t|t o r]; cbn [fate]; auto.
  destruct (running s t) as [[o [r|er|i k|i old nn k|i old nn k|k|old nn k|nn k]]|]; auto; destruct (swaps (sm s) i old); auto.
  - destruct nn as [[]|[ | |[s0 d]| | | | ]]; cbn [handed]; eauto. destruct (entry_one (sm s) d) as [-> |[q ->]]; simpl; eauto.
  - right. exists old. reflexivity.
Qed.
Lemma lift_step w t o p : settled w -> running (w_s w) t = Some (o, p) -> (forall r, p <> Ret r) -> (forall e, p <> Err e) ->
  exists w', settled w' /\ w_s w' = {| sm := fst (pstep (sm (w_s w)) p); running := tset (running (w_s w)) t (Some (o, snd (pstep (sm (w_s w)) p))) |} /\ w_held w' = hold w (EStep t).
Proof.
  intros [Hr Hq Hp Hu] Hn Ha He. pose proof (Hp t) as Hi. rewrite Hn in Hi. pose proof (S_step _ t o p Hn Ha He) as Hs.
  destruct (fate_one (w_s w) (EStep t) (w_f w)) as [Ef|[g Ef]].
  - destruct (some_step w _ (conj Hr Hq) (ws_tree n th w (EStep t) _ (w_e w) Hi Hs (or_introl (conj Ef eq_refl))) (or_introl eq_refl)) as [A B].
    eexists. split; [constructor; [exact A|exact B| |]|split; reflexivity].
    + intros u. cbn [w_s w_e running]. unfold tset. destruct (Nat.eqb_spec u t) as [-> |Hne]; [exact Hi|apply Hp].
    + intros x. cbn [w_e w_f]. rewrite Ef. apply Hu.
  - assert (E1 : exists e1, Epoch.step n th (Epoch.AUnlink t (length (handed (w_f w)))) (w_e w) = Some e1 /\ Epoch.pcs e1 t = Epoch.Unlinking (length (handed (w_f w))) /\ (forall u, u <> t -> Epoch.pcs e1 u = Epoch.pcs (w_e w) u) /\
       Epoch.unl e1 = (length (handed (w_f w)), Epoch.running_ops n (w_e w)) :: Epoch.unl (w_e w)).
    { cbn [Epoch.step]. rewrite Hi. destruct (existsb (fun '(y, _) => length (handed (w_f w)) =? y) (Epoch.unl (w_e w))) eqn:Ex.
      - exfalso. apply existsb_exists in Ex as ([y ops] & Hin & Ey). apply Nat.eqb_eq in Ey. assert (length (handed (w_f w)) < length (handed (w_f w))); [|lia]. apply Hu. apply in_map_iff. exists (y, ops). auto.
      - eexists. split; [reflexivity|]. cbn [Epoch.pcs Epoch.unl]. unfold Epoch.upd. rewrite Nat.eqb_refl. split; auto. split; auto. intros u Hne. destruct (Nat.eqb_spec u t); [contradiction|auto]. }
    destruct E1 as (e1 & E1 & P1 & O1 & U1).
    pose proof (some_step w _ (conj Hr Hq) (ws_tree n th w (EStep t) _ e1 Hi Hs (or_intror (ex_intro _ g (conj Ef E1)))) (or_intror (ex_intro _ _ E1))) as S1.
    destruct (unlink_back n th t _ e1 P1) as (e2 & E2 & P2 & O2 & U2). apply (some_steps _ t e2) in S1; [|exact E2]. destruct S1 as [A B].
    eexists. split; [constructor; [exact A|exact B| |]|split; reflexivity].
    + intros u. cbn [with_e w_s w_e running]. unfold tset. destruct (Nat.eqb_spec u t) as [-> |Hne]; [exact P2|]. rewrite O2, O1; auto.
    + intros x. cbn [with_e w_e w_f]. rewrite Ef, U2, U1. cbn [map fst In length]. rewrite Hu. lia.
Qed.

(** * The same for the schedules of TreeFast.v *)
Hypothesis two : 2 <= n.
Definition fw (s : fsys) : Prop :=
  exists w, settled w /\ rep (g_mem s) (sm (w_s w)) /\ (forall t, g_run s t = running (w_s w) (tid t)) /\ forall u, 2 <= u -> running (w_s w) u = None.
Lemma fsteps_lift k : forall f p f' p' w t o (r : bool -> option (op * prog resp)), settled w -> rep f (sm (w_s w)) -> running (w_s w) (tid t) = Some (o, p) ->
  (forall u, u <> t -> r u = running (w_s w) (tid u)) -> (forall u, 2 <= u -> running (w_s w) u = None) -> fsteps k f p = (f', p') ->
  exists w', settled w' /\ rep f' (sm (w_s w')) /\ running (w_s w') (tid t) = Some (o, p') /\ (forall u, u <> t -> r u = running (w_s w') (tid u)) /\ forall u, 2 <= u -> running (w_s w') u = None.
Proof.
  induction k as [|k IH]; intros f p f' p' w t o r Hx Hr Hp Ho Hz E.
  - injection E as <- <-. exists w. auto.
  - assert (Hd : (exists a, p = Ret a) \/ (exists e, p = Err e) \/ ((forall a, p <> Ret a) /\ (forall e, p <> Err e))).
    { destruct p; [left; eauto|right; left; eauto|right; right; split; discriminate..]. }
    destruct Hd as [(a & ->)|[(e & ->)|[Ha He]]]; [simpl in E; injection E as <- <-; exists w; auto..|].
    assert (E' : fsteps k (fst (fstep f p)) (snd (fstep f p)) = (f', p')).
    { destruct p; [exfalso; eapply Ha; reflexivity|exfalso; eapply He; reflexivity|exact E..]. }
    destruct (fstep_ok f (sm (w_s w)) p Hr) as [Hr' Ep]. rewrite Ep in E'. destruct (lift_step w (tid t) o p Hx Hp Ha He) as (w1 & Hs1 & Ew & _).
    apply (IH _ _ _ _ w1 t o r) in E'; auto; rewrite Ew; cbn [sm running]; auto.
    + unfold tset. rewrite Nat.eqb_refl. reflexivity.
    + intros u Hu. unfold tset. destruct (tid u =? tid t) eqn:Eu; [|auto]. exfalso. destruct u, t; try discriminate; auto.
    + apply tset_two, Hz.
Qed.
Lemma fdo_lift s c : fw s -> fw (fdo s c).
Proof.
  intros (w & Hx & Hr & Hg & Hz). assert (H0 : fw s) by (exists w; auto). destruct c as [t o fuel|t k|t]; simpl.
  - destruct (g_run s t) eqn:E; auto. rewrite Hg in E. pose proof (tid_two t). destruct (lift_call w (tid t) o fuel Hx ltac:(lia) E) as (w' & Hw & Ew).
    exists w'. split; auto. rewrite Ew. split; [exact Hr|]. split; [apply put_ok, Hg|apply tset_two, Hz].
  - destruct (g_run s t) as [[o p]|] eqn:E; auto. rewrite Hg in E. destruct (fsteps k (g_mem s) p) as [f' p'] eqn:Ef.
    destruct (fsteps_lift k _ _ _ _ _ t o (g_run s) Hx Hr E (fun u _ => Hg u) Hz Ef) as (w2 & Hx2 & Hr2 & Hp2 & Ho2 & Hz2).
    exists w2. split; [exact Hx2|]. split; [exact Hr2|]. split; [|exact Hz2]. intros u. simpl. unfold put, slot. destruct t, u; simpl; auto; apply Ho2; discriminate.
  - destruct (g_run s t) as [[o p]|] eqn:E; auto. destruct p; auto. rewrite Hg in E.
    destruct (lift_ret w (tid t) _ _ Hx E) as (w' & Hw & Ew). exists w'. split; auto. rewrite Ew. split; [exact Hr|]. split; [apply put_ok, Hg|apply tset_two, Hz].
Qed.
Lemma fold_lift l : forall s, fw s -> fw (fold_left fdo l s).
Proof. induction l as [|c l IH]; intros s H; simpl; auto. apply IH, fdo_lift, H. Qed.
End Lift.

(** * A page that has been taken out is released and then loaded *)
Section Use.
Context {P : Params}.
Variables n th : nat.
Hypothesis two : 2 <= n.
Definition began (w : wst) : Prop := exists acts, w_e w = Epoch.run n th Epoch.init acts.
Lemma began_step w w' : began w -> wstep n th w w' -> (w_e w' = w_e w \/ exists a, Epoch.step n th a (w_e w) = Some (w_e w')) -> began w'.
Proof.
  intros [acts E] _ [Ee|[a Ea]]; [exists acts; congruence|]. exists (acts ++ [a]). rewrite EpochProofs.run_app, <- E. cbn [Epoch.run]. rewrite Ea. reflexivity.
Qed.
Definition gone (q : N) (w : wst) : Prop := exists k, In k (Epoch.freed (w_e w)) /\ handed_at (w_f w) k q.
Lemma gone_step q w w' : gone q w -> wstep n th w w' -> (w_e w' = w_e w \/ exists a, Epoch.step n th a (w_e w) = Some (w_e w')) -> gone q w'.
Proof.
  intros (k & Hk & Hh) Hs He. exists k. split.
  - destruct He as [-> |[a Ea]]; auto. eapply freed_mono; eauto.
  - inversion Hs; subst; cbn [w_f] in *; auto. destruct (fate_handed (w_s w) e (w_f w)) as [l El]. unfold handed_at in *. rewrite El, rev_app_distr, nth_error_app1; auto. apply nth_error_Some. congruence.
Qed.
Lemma gone_released q w : gone q w -> released w q.
Proof. intros (k & Hk & Hh). exists k, q. split; auto. split; auto. constructor. Qed.
Lemma fw_play l : fw n th began (fplay l).
Proof.
  unfold fplay. apply (fold_lift n th began began_step two). exists winit. split; [|split; [apply rep_init|split; [intros []; reflexivity|reflexivity]]].
  constructor; [constructor|exists []; reflexivity|reflexivity|]. intros x. simpl. split; [intros []|lia].
Qed.
(** When no call is in progress, UpdateThreadLocal releases everything that was
    handed over. *)
Lemma renewed s i q : fw n th began s -> g_run s true = None -> g_run s false = None -> (forall m, rep (g_mem s) m -> cut m i /\ tab m i = Some q) -> fw n th (gone q) s.
Proof.
  intros (w & [Hw [acts Ea] Hp Hu] & Hr & Hg & Hz) H1 H0 Hc. destruct (Hc _ Hr) as [Hcut Ht]. rewrite Hg in H1, H0. cbn [tid] in *.
  assert (Hi : forall t, Epoch.pcs (w_e w) t = Epoch.Idle). { intros [|[|t]]; rewrite Hp; [rewrite H0|rewrite H1|rewrite Hz by lia]; reflexivity. }
  pose proof (EpochProofs.run_inv n th acts _ (EpochProofs.init_inv n)) as Hinv. rewrite <- Ea in Hinv.
  assert (Ho : forall t, n <= t -> Epoch.hdr (Epoch.slots (w_e w) t) = None). { rewrite Ea. apply EpochProofs.run_out; [apply EpochProofs.init_inv|reflexivity]. }
  destruct (renew_inv n (w_e w) Hinv Ho Hi) as (_ & R1 & R2).
  pose proof (EpochProofs.shutdown_all n th acts) as Hsh. cbv zeta in Hsh. rewrite <- Ea in Hsh. destruct (Hsh Hi) as (_ & _ & Hf).
  exists {| w_s := w_s w; w_f := w_f w; w_e := renew n (w_e w); w_held := w_held w |}. split; [|auto]. constructor; cbn [w_s w_f w_e].
  - eapply wr_step; [exact Hw|apply ws_renew; exact Hi|exact I].
  - destruct (wrun_usual _ _ _ _ Hw) as [HF _]. destruct (fated_rel _ _ HF) as (L & Hl & HR). assert (Hin : In q (handed (w_f w))) by (apply (r_handed _ _ _ HR); eauto).
    apply in_rev in Hin. apply In_nth_error in Hin as [k Hk]. exists k. split; [|exact Hk]. cbn [w_e]. change (Epoch.freed (renew n (w_e w))) with (Epoch.freed (Epoch.shutdown n (w_e w))). apply Hf, Hu. rewrite <- rev_length. apply nth_error_Some. congruence.
  - intros t. rewrite R2. apply Hp.
  - intros x. rewrite R1. apply Hu.
Qed.
Lemma loads s t o i k q : fw n th (gone q) s -> g_run s t = Some (o, PLoad i k) -> (forall m, rep (g_mem s) m -> tab m i = Some q) ->
  exists w p, wrun n th (fun _ => True) w /\ running (w_s w) (tid t) = Some (o, p) /\ (forall u, u <> tid t -> running (w_s w) u = match u with 0 => g_run s false | 1 => g_run s true | _ => None end) /\
    rep (g_mem s) (sm (w_s w)) /\ In q (w_held w (tid t)) /\ released w q.
Proof.
  intros (w & Hw & Hr & Hg & Hz) Ht Hq. rewrite Hg in Ht. destruct (lift_step n th _ (gone_step q) w (tid t) o _ Hw Ht) as (w' & [A B _ _] & Ew & Eh); [discriminate..|].
  exists w', (snd (pstep (sm (w_s w)) (PLoad i k))). split; auto. split; [rewrite Ew; cbn [running]; unfold tset; rewrite Nat.eqb_refl; reflexivity|]. split.
  { intros u Hu. rewrite Ew. cbn [running]. unfold tset. destruct (Nat.eqb_spec u (tid t)); [contradiction|]. destruct u as [|[|u]]; [rewrite Hg|rewrite Hg|apply Hz; lia]; reflexivity. }
  split; [|split; [|apply gone_released; auto]].
  - rewrite Ew. cbn [sm pstep]. destruct (get (sm (w_s w)) i); exact Hr.
  - rewrite Eh. unfold hold. rewrite Ht. unfold Epoch.upd. rewrite Nat.eqb_refl. apply in_or_app. left. cbn [takes]. apply in_flat_map. exists q. split; [unfold entry; rewrite (Hq _ Hr); left; reflexivity|left; reflexivity].
Qed.
End Use.
