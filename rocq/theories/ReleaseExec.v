(** The invariant of executions of the index with its epoch manager (C54). *)
From Coq Require Import NArith List Arith Lia Bool ZArith.
From Verif Require Import Base Leaf LeafSpec Inner InnerSpec InnerProofs Tree TreeSpec TreeInv TreeSafe TreeProg TreeLin TreeRoom MarkerSpec Marker GarbageSpec Garbage LinkSpec Links LinkProg LinkExec FateSpec Fate ReleaseSpec Avoid.
From Verif Require Epoch EpochProofs.
Import ListNotations.

Section ReleaseExec.
Context {P : Params}.

(** * The epoch manager *)
Definition inop (p : Epoch.tpc) : Prop := match p with Epoch.Running | Epoch.Unlinking _ | Epoch.GCSum _ _ | Epoch.GCFree _ => True | _ => False end.
Lemma inop_running p : inop p -> Epoch.running p = true.
Proof. destruct p; simpl; auto; contradiction. Qed.
Section Ep.
Variables n th : nat.
Lemma ep_step a e e' : Epoch.step n th a e = Some e' -> (forall t x, a <> Epoch.AUnlink t x) ->
  Epoch.unl e' = Epoch.unl e /\
  (forall t, inop (Epoch.pcs e' t) -> a = Epoch.AStep t /\ ~ inop (Epoch.pcs e t) \/ inop (Epoch.pcs e t) /\ Epoch.opno e' t = Epoch.opno e t) /\
  (forall t, inop (Epoch.pcs e t) -> a <> Epoch.ALeave t -> inop (Epoch.pcs e' t)).
Proof.
  intros E Hu.
  assert (G : forall u p, Epoch.unl e' = Epoch.unl e -> Epoch.pcs e' = Epoch.upd (Epoch.pcs e) u p -> Epoch.opno e' = Epoch.opno e -> (inop p -> a = Epoch.AStep u /\ ~ inop (Epoch.pcs e u) \/ inop (Epoch.pcs e u)) -> (inop (Epoch.pcs e u) -> a <> Epoch.ALeave u -> inop p) ->
    Epoch.unl e' = Epoch.unl e /\
    (forall t, inop (Epoch.pcs e' t) -> a = Epoch.AStep t /\ ~ inop (Epoch.pcs e t) \/ inop (Epoch.pcs e t) /\ Epoch.opno e' t = Epoch.opno e t) /\
    (forall t, inop (Epoch.pcs e t) -> a <> Epoch.ALeave t -> inop (Epoch.pcs e' t))).
  { intros u p E1 E2 E3 Hr Hi. split; auto. rewrite E2, E3. split; intros t; unfold Epoch.upd; destruct (Nat.eqb_spec t u); subst; auto. intros H. destruct (Hr H); auto. }
  destruct a as [|u|u x|u|u|u]; cbn [Epoch.step] in E.
  - injection E as <-. cbn. auto.
  - destruct (Nat.ltb u n); [|discriminate]. destruct (Epoch.pcs e u) eqn:Eu; try discriminate. injection E as <-. cbn [Epoch.unl Epoch.pcs Epoch.opno]. split; auto. unfold Epoch.upd. split; intros t; destruct (Nat.eqb_spec t u); subst; auto; [intros []|]. rewrite Eu. intros [].
  - destruct (Hu u x eq_refl).
  - destruct (Epoch.pcs e u) eqn:Eu; try discriminate. injection E as <-. apply (G u (Epoch.LeaveRead (Epoch.ep e))); auto; [intros []|]. intros _ H. destruct H; auto.
  - destruct (Nat.ltb u n); [|discriminate]. destruct (Epoch.pcs e u) eqn:Eu; try discriminate. injection E as <-. auto.
  - destruct (Epoch.pcs e u) as [|e0| |x|i m|m|e0] eqn:Eu; try discriminate.
    + injection E as <-. apply (G u Epoch.Running); auto; rewrite Eu; simpl; intuition.
    + injection E as <-. assert (H : exists p, inop p /\ Epoch.pcs (Epoch.add_garbage th e u x) = Epoch.upd (Epoch.pcs e) u p /\ Epoch.unl (Epoch.add_garbage th e u x) = Epoch.unl e /\ Epoch.opno (Epoch.add_garbage th e u x) = Epoch.opno e).
      { unfold Epoch.add_garbage. exists (if Nat.ltb th (S (Epoch.cnt (Epoch.slots e u))) then Epoch.GCSum 0 None else Epoch.Running). split; [destruct (Nat.ltb _ _); exact I|].
        destruct (Epoch.last (Epoch.slots e u)) as [p|]; [destruct (nth_error (Epoch.cells e) p) as [c|]; [destruct (Epoch.alive c)|]|]; auto. }
      destruct H as (p & H1 & H2 & H3 & H4). apply (G u p); auto; rewrite Eu; simpl; intuition.
    + destruct (Nat.ltb i n); injection E as <-; [apply (G u (Epoch.GCSum (S i) (Epoch.emin m (Epoch.lae (Epoch.slots e i)))))|apply (G u (Epoch.GCFree m))]; auto; rewrite Eu; simpl; intuition.
    + assert (H : Epoch.pcs (fst (Epoch.gc_iter e u m)) = Epoch.pcs e /\ Epoch.unl (fst (Epoch.gc_iter e u m)) = Epoch.unl e /\ Epoch.opno (fst (Epoch.gc_iter e u m)) = Epoch.opno e).
      { unfold Epoch.gc_iter. destruct (Epoch.hdr (Epoch.slots e u)); [|auto]. destruct (nth_error (Epoch.cells e) n0); [|auto]. destruct (negb (Epoch.alive c)); [auto|]. destruct (Epoch.elt (Epoch.de c) m); [|auto]. destruct (Nat.eqb _ _); auto. }
      destruct (Epoch.gc_iter e u m) as [s1 more]. cbn [fst] in H. destruct H as (H1 & H2 & H3). injection E as <-. destruct more.
      * rewrite H1, H2, H3. auto.
      * apply (G u Epoch.Running); cbn; auto; try congruence; rewrite Eu; simpl; intuition.
    + injection E as <-. apply (G u Epoch.Idle); auto; rewrite Eu; simpl; intuition.
Qed.
Lemma gc_iter_ep s o m : Epoch.ep (fst (Epoch.gc_iter s o m)) = Epoch.ep s /\ Epoch.opno (fst (Epoch.gc_iter s o m)) = Epoch.opno s.
Proof.
  unfold Epoch.gc_iter. destruct (Epoch.hdr (Epoch.slots s o)); [|auto]. destruct (nth_error (Epoch.cells s) n0); [|auto]. destruct (negb (Epoch.alive c)); [auto|].
  destruct (Epoch.elt (Epoch.de c) m); [|auto]. destruct (Nat.eqb _ _); auto.
Qed.
Lemma gc_loop_ep o m f : forall s, Epoch.ep (Epoch.gc_loop f s o m) = Epoch.ep s /\ Epoch.opno (Epoch.gc_loop f s o m) = Epoch.opno s.
Proof.
  induction f as [|f IH]; intros s; [auto|]. cbn [Epoch.gc_loop]. pose proof (gc_iter_ep s o m) as [G1 G2]. destruct (Epoch.gc_iter s o m) as [s1 []]; cbn [fst] in *; auto. destruct (IH s1). split; congruence.
Qed.
Lemma clear_ep l : forall s, Epoch.ep (fold_left (Epoch.clear_one n) l s) = Epoch.ep s /\ Epoch.opno (fold_left (Epoch.clear_one n) l s) = Epoch.opno s.
Proof.
  induction l as [|t l IH]; intros s; simpl; auto. destruct (IH (Epoch.clear_one n s t)) as [-> ->]. unfold Epoch.clear_one. cbv zeta. destruct (Nat.eqb _ 0); cbn [Epoch.set_bad Epoch.ep Epoch.opno]; apply gc_loop_ep.
Qed.
Lemma renew_inv e : EpochProofs.Inv n e -> (forall t, n <= t -> Epoch.hdr (Epoch.slots e t) = None) -> (forall t, Epoch.pcs e t = Epoch.Idle) ->
  EpochProofs.Inv n (renew n e) /\ Epoch.unl (renew n e) = Epoch.unl e /\ Epoch.pcs (renew n e) = Epoch.pcs e.
Proof.
  intros (L & J & HL & HS & HB) Hh Hi. destruct (EpochProofs.fold_unregister (seq 0 n) e) as (H1 & H2 & H3 & H4 & H5 & H6 & H7 & H8 & H9 & H10).
  set (s0 := fold_left Epoch.unregister (seq 0 n) e) in *.
  assert (HL0 : EpochProofs.LI (fun _ => false) s0 L).
  { eapply EpochProofs.LI_frame; eauto; [lia|intros u; rewrite H2; auto|]. cbv beta. intros u. rewrite Hi. auto. }
  destruct (EpochProofs.clear_all n (seq 0 n) s0 L HL0) as (Q1 & L' & Q2 & Q3 & Q4 & Q5 & Q6).
  - intros t. rewrite H2. auto.
  - intros u Hu. apply H9. apply in_seq. lia.
  - apply seq_NoDup.
  - destruct (clear_ep (seq 0 n) s0) as [C1 C2]. unfold renew, Epoch.shutdown. cbv zeta. fold s0. set (s2 := fold_left (Epoch.clear_one n) (seq 0 n) s0) in *.
    cbn [Epoch.unl Epoch.pcs]. split; [|split; congruence].
    assert (EL : forall u, L' u = []).
    { intros u. destruct (Nat.lt_ge_cases u n) as [Hu|Hu]; [apply Q5, in_seq; lia|]. rewrite Q6 by (rewrite in_seq; lia). pose proof (EpochProofs.li_link _ _ _ HL u) as Hl. rewrite (Hh u Hu) in Hl. destruct (L u); auto. destruct Hl; discriminate. }
    assert (Hp : forall t, Epoch.pcs s2 t = Epoch.Idle) by (intros t; rewrite Q4, H2; auto).
    exists (fun _ => []), (fun _ => 0). split; [|split; [|cbn [Epoch.bad]; congruence]].
    + constructor; cbn [Epoch.cells Epoch.slots Epoch.pcs Epoch.unl Epoch.freed Epoch.ep Epoch.hdr Epoch.last Epoch.cnt Epoch.slot0]; try exact (fun _ => eq_refl); try exact (fun _ _ _ => eq_refl); try apply Q2.
      * intros t Ht. destruct Ht; auto.
      * intros _. constructor.
      * intros t u a [].
      * intros a c Ha Hl. destruct (EpochProofs.li_alive _ _ _ Q2 _ _ Ha Hl) as [t Ht]. rewrite EL in Ht. destruct Ht.
      * intros _. constructor.
    + constructor; cbn [Epoch.cells Epoch.slots Epoch.pcs Epoch.unl Epoch.freed Epoch.ep Epoch.lae Epoch.slot0 Epoch.opno]; try (intros; rewrite Hp in *; discriminate).
      * intros t _. apply Hp.
      * intros t e0 E0. injection E0 as <-. split; [lia|]. rewrite Hp. split; [discriminate|]. intros; discriminate.
      * intros t. rewrite Hp. split; [discriminate|]. split; intros; discriminate.
      * intros x ops t k Hx Ht. rewrite Q3, H3 in Hx. rewrite C2, H7. eapply (EpochProofs.si_ops _ _ _ _ HS); eauto.
Qed.
End Ep.

(** * The tree *)
Lemma cut_heap m m' d : (forall p n, heap m p = Some n -> heap m' p = Some n) -> cut m d -> cut m' d.
Proof. intros H (p & n & Hp & Hd). exists p, n. auto. Qed.
Lemma node_facts s L w i q n : linv s L w -> pub w i -> get (sm s) i = Some (q, n) ->
  wfn n /\ (forall p c, n = NInner (IAbort p c) -> live (NInner c)) /\ (is_remove n = false -> (forall d, kid n d -> ~ cut (sm s) d) /\ (forall h d, nhigh n = Some (h, d) -> ~ cut (sm s) d)).
Proof.
  intros Hl Hp Hg. destruct (linv_gok _ _ _ Hl) as (lv & Em & Hk). set (x := {| gw := w; lev := lv; gl := L |}) in *. assert (Eg : gm x = sm s) by exact Em. rewrite <- Eg in *.
  pose proof (sk_load x i q n Hk Hp Hg) as Hs. split; [apply (y_wf _ _ Hs)|]. split.
  - intros p c ->. pose proof (o_mark _ Hk _ _ (y_cell _ _ Hs)) as [_ A]. pose proof (o_mlive _ Hk _ _ _ (y_cell _ _ Hs)) as B. split; auto.
  - intros Hr. assert (Hn : node_of (gm x) i = Some n) by (apply node_of_get; eauto). split.
    + intros d Hd. eapply (o_kid _ Hk); eauto. eapply live_kept; eauto.
    + intros h d Hd. eapply uncut; eauto.
Qed.
Lemma next_unmerged s L w i q n h d : linv s L w -> pub w i -> get (sm s) i = Some (q, n) -> is_remove n = false -> nhigh n = Some (h, d) -> ~ merged (sm s) d.
Proof.
  intros Hl Hp Hg Hr Eh. destruct (linv_gok _ _ _ Hl) as (lv & Em & Hk). set (x := {| gw := w; lev := lv; gl := L |}) in *. assert (Eg : gm x = sm s) by exact Em. rewrite <- Eg in *.
  assert (Hn : node_of (gm x) i = Some n) by (apply node_of_get; eauto). apply (o_next _ Hk i d); [eapply live_kept; eauto|exists n, h; auto].
Qed.
Lemma node_lfo (D : nat -> Prop) s L w t o p i q n : linv s L w -> pub w i -> get (sm s) i = Some (q, n) -> (forall d, D d -> cut (sm s) d) -> routed s -> running s t = Some (o, p) -> lfo D o n.
Proof.
  intros Hl Hp Hg HD HR Hr. destruct (node_facts _ _ _ _ _ _ Hl Hp Hg) as (A & B & C). assert (Hn : node_of (sm s) i = Some n) by (apply node_of_get; eauto). constructor; auto.
  - intros Hm d Hd Hdd. apply (proj1 (C Hm) d Hd). auto.
  - intros Hm h d Hd Hdd. apply (proj2 (C Hm) h d Hd). auto.
  - intros Hm c j -> Hh En Hdd. refine (HR t o p i c j Hr Hn Hm _ _ (HD _ Hdd)).
    + unfold stays. destruct (ihigh c) as [[h d]|]; [|destruct o; auto]. specialize (Hh _ _ eq_refl). destruct o; simpl in Hh; auto; unfold kge, kgt in Hh; try (apply negb_false_iff in Hh; exact Hh).
    + destruct o; simpl in *; auto; discriminate.
Qed.
Lemma swaps_cas (m : mem) i o n (k : option N -> prog resp) : tab m i = Some o -> pstep m (Cas i o n k) = (cas_mem m i n, k (Some (nptr m))).
Proof. intros E. cbn [pstep]. rewrite E, N.eqb_refl. reflexivity. Qed.
Lemma avo_step (D : nat -> Prop) s L w t o p s' : lived s L -> linv s L w -> running s t = Some (o, p) -> sstep s (EStep t) s' -> sm s' = fst (pstep (sm s) p) -> running s' t = Some (o, snd (pstep (sm s) p)) ->
  (forall d, D d -> cut (sm s) d) -> routed s -> routed s' -> avo D o p -> avo D o (snd (pstep (sm s) p)).
Proof.
  intros Hlv Hl Hr Hs Em Er HD HR HR' Hp. unfold avo in *. destruct p as [r|er|i k|i old n k|i old n k|k|old n k|n k]; cbn [av] in Hp.
  - exact Hp.
  - exact Hp.
  - cbn [pstep snd]. destruct (get (sm s) i) as [[q n]|] eqn:Eg; [|exact I]. apply Hp. eapply node_lfo; eauto. eapply linv_pub; eauto.
  - destruct (swaps (sm s) i old) eqn:Es.
    + apply swaps_eq in Es as Et. rewrite (swaps_cas _ _ _ _ _ Et) in *. cbn [fst snd] in *. destruct (linv_step _ _ _ _ _ Hlv Hl Hs) as (w' & Hle & Hl').
      apply Hp. assert (Hpi : pub w i) by (eapply linv_pub; eauto 8). apply (node_lfo D s' (note s (EStep t) L) w' t o (k (Some (nptr (sm s)))) i (nptr (sm s)) n); auto.
      * apply (l_pub _ _ Hle). auto.
      * rewrite Em. apply get_intro; simpl; [apply fset_eq|apply pfset_eq].
      * intros d Hd. destruct (HD _ Hd) as (p & m & Hpm & Hc). exists p, m. split; auto. rewrite Em. simpl. rewrite pfset_ne; auto. intros ->.
        destruct (linv_gok _ _ _ Hl) as (lv & Em0 & Hk). pose proof (b_heap _ (k_bound _ (o_ok _ Hk)) (nptr (sm s))) as Hb. cbn [gw] in Hb. rewrite Em0 in Hb. rewrite Hb in Hpm by lia. discriminate.
    + assert (Et : tab (sm s) i <> Some old) by (intros E; apply swaps_eq in E; congruence). cbn [pstep]. destruct (tab (sm s) i) as [a|]; [|apply Hp]. destruct (N.eqb a old) eqn:E; [|apply Hp]. apply N.eqb_eq in E. congruence.
  - cbn [pstep]. destruct (tab (sm s) i) as [a|]; [|apply Hp]. destruct (N.eqb a old); apply Hp.
  - cbn [pstep snd]. apply Hp. intros Hd. apply HD in Hd. destruct (linv_gok _ _ _ Hl) as (lv & Em0 & Hk). pose proof (o_cutlev _ Hk (root (sm s))) as Hc. unfold gm in Hc. cbn [gw] in Hc. rewrite Em0 in Hc. specialize (Hc Hd). lia.
  - cbn [pstep]. destruct (root (sm s) =? old); apply Hp.
  - cbn [pstep snd]. apply Hp. intros Hd. apply HD in Hd. destruct (linv_gok _ _ _ Hl) as (lv & Em0 & Hk). pose proof (o_cut _ Hk (nid (sm s))) as Hc. unfold gm in Hc. cbn [gw] in Hc. rewrite Em0 in Hc.
    destruct (Hc Hd) as (p & nm & Hpm & Hm). destruct (o_gone _ Hk p nm (nid (sm s))) as (q & rn & Hpub & _); auto; [unfold gm; cbn [gw]; rewrite Em0; auto|]. apply (pub_nid _ _ (o_ok _ Hk)) in Hpub. cbn [gw] in Hpub. rewrite Em0 in Hpub. lia.
Qed.
(** The first leaf page is never taken out. *)
Lemma first_uncut s L : lived s L -> ~ cut (sm s) FIRST_LEAF.
Proof.
  induction 1 as [|s L e s' Hlv IH Hs].
  { intros (p & n & Hp & Hc). simpl in Hp. destruct p as [|[q|q|]]; inversion Hp; subst; contradiction. }
  destruct (linv_lived _ _ Hlv) as [w Hl]. destruct (linv_step _ _ _ _ _ Hlv Hl Hs) as (w' & Hle & Hl'). destruct (lived_exec _ _ Hlv) as (tr & ss & Hx). destruct (exec_minv _ _ _ Hx) as [D Hmi].
  intros (q & nq & Hq & Hc). destruct (heap (sm s) q) as [nq0|] eqn:Eq.
  - assert (nq0 = nq) as ->.
    { destruct (linv_gok _ _ _ Hl) as (lv & Em & _), (linv_gok _ _ _ Hl') as (lv' & Em' & _). assert (heap (sm s') q = Some nq0) by (rewrite <- Em'; apply (l_heap _ _ Hle); rewrite Em; auto). congruence. }
    apply IH. exists q, nq. auto.
  - inversion Hs as [s0 t o fuel Hr|s0 t o p Hr Hnr Hne|s0 t o r Hr]; subst s0 e s'; cbn [sm] in Hq; try congruence.
    destruct p as [r|er|i k|i old n k|i old n k|k|old n k|n k]; cbn [pstep fst] in Hq; try congruence.
    + destruct (get (sm s) i); cbn [fst] in Hq; congruence.
    + destruct (swaps (sm s) i old) eqn:Es.
      * apply swaps_eq in Es as Et. rewrite Et, N.eqb_refl in Hq. cbn [fst heap] in Hq. unfold pfset in Hq. destruct (N.eqb_spec q (nptr (sm s))) as [->|Hne']; [|congruence]. injection Hq as <-.
        assert (Hpi : pub w i) by (eapply linv_pub; eauto 8). apply (l_pub _ _ Hle) in Hpi. destruct (linv_gok _ _ _ Hl') as (lv' & Em' & Hk'). cbn [sm] in Em'. rewrite (swaps_cas _ _ _ _ _ Et) in Em'. cbn [fst] in Em'.
        destruct (k_pub _ (o_ok _ Hk') i Hpi) as (n1 & Hn1 & Hb & _). cbn [gw] in Hn1, Hb. assert (n1 = n).
        { apply node_of_get in Hn1 as [p1 Hg1]. rewrite Em' in Hg1. rewrite (get_intro (cas_mem (sm s) i n) i (nptr (sm s)) n) in Hg1; [congruence|apply fset_eq|apply pfset_eq]. }
        subst n1. destruct n as [|[ | |[sk d] [ps pi] nx0 loc c| | | |]]; simpl in Hc; try contradiction. subst d. destruct Hb as [Hw _]. simpl in Hw. destruct Hw as (Hw & _ & _ & Hsep & _).
        destruct (seps_range _ _ Hw _ _ Hsep) as (_ & _ & Hlo). destruct (k_first _ (o_ok _ Hk')) as (_ & Hlo' & _). cbn [gw] in Hlo'. congruence.
      * assert (Et : tab (sm s) i <> Some old) by (intros E; apply swaps_eq in E; congruence). destruct (tab (sm s) i) as [a|]; [|cbn [fst] in Hq; congruence]. destruct (N.eqb a old) eqn:E; [apply N.eqb_eq in E; congruence|cbn [fst] in Hq; congruence].
    + destruct (tab (sm s) i) as [a|]; [|cbn [fst] in Hq; congruence]. destruct (N.eqb a old); cbn [fst heap] in Hq; congruence.
    + destruct (root (sm s) =? old); cbn [fst heap] in Hq; congruence.
    + cbn [heap] in Hq. unfold pfset in Hq. destruct (N.eqb_spec q (nptr (sm s))) as [->|Hne']; [|congruence]. injection Hq as <-.
      assert (Hdn : is_delta n = false) by (pose proof (mi_run _ _ Hmi _ _ _ Hr) as Hd; destruct (D t); try contradiction; apply Hd). apply base_no in Hdn. destruct Hdn as [_ Hdn]. apply (Hdn _ Hc).
Qed.

(** * Chains *)
Lemma fated_own s F : fated s F -> exists L S D, lived s L /\ facts s /\ Garbage.ginv s L S /\ rel s L F /\ minv s D.
Proof.
  intros H. destruct (fated_rel _ _ H) as (L & Hl & HR). destruct (lived_ginv _ _ Hl) as [S HS]. destruct (lived_exec _ _ Hl) as (tr & ss & Hx). destruct (exec_minv _ _ _ Hx) as [D Hm].
  exists L, S, D. split; auto. split; [eapply lived_facts; eauto|]. auto.
Qed.
Section Own.
Variables (s : sys) (F : flog).
Hypothesis HF : fated s F.
Lemma tab_alloc i q : tab (sm s) i = Some q -> (exists n, heap (sm s) q = Some n) /\ (q < nptr (sm s))%N.
Proof. intros E. destruct (fated_own _ _ HF) as (L & S & D & _ & _ & _ & _ & Hm). apply (mi_tab _ _ Hm) in E as (_ & n & E). split; eauto. apply (mi_heap _ _ Hm) in E. apply E. Qed.
Lemma low_alloc q n : heap (sm s) q = Some n -> (q < nptr (sm s))%N.
Proof. intros E. destruct (fated_own _ _ HF) as (L & S & D & _ & _ & _ & _ & Hm). apply (mi_heap _ _ Hm) in E. apply E. Qed.
Lemma blocked_alloc i p q : blocked (sm s) i p q -> exists n, heap (sm s) q = Some n.
Proof. intros (_ & c & E). destruct (fated_own _ _ HF) as (L & S & D & _ & _ & _ & _ & Hm). apply (mi_heap _ _ Hm) in E. destruct E as [[E _] _]. exists (NInner c). exact E. Qed.
Lemma handed_low g : In g (handed F) -> (g < nptr (sm s))%N.
Proof.
  intros H. destruct (fated_own _ _ HF) as (L & S & D & _ & Hf & HS & HR & Hm). apply (r_handed _ _ _ HR) in H. destruct H as [H|(d & _ & H)]; [|eapply tab_alloc; eauto].
  apply (g_given _ _ _ HS) in H. apply (g_kind _ _ _ HS) in H. destruct H as (n & Hn & _). eapply low_alloc; eauto.
Qed.
Lemma handed_cut g i : In g (handed F) -> tab (sm s) i = Some g -> cut (sm s) i.
Proof.
  intros H Ht. destruct (fated_own _ _ HF) as (L & S & D & _ & Hf & HS & HR & Hm). apply (g_cur _ _ _ HS) in Ht. apply (r_handed _ _ _ HR) in H; destruct H as [H|(d & Hd & H)].
  - apply (g_given _ _ _ HS) in H. congruence.
  - apply (g_cur _ _ _ HS) in H. assert (i = d) by congruence. subst. auto.
Qed.
Lemma handed_free g i p : In g (handed F) -> ~ blocked (sm s) i p g.
Proof.
  intros H Hb. destruct (fated_own _ _ HF) as (L & S & D & _ & Hf & HS & HR & Hm). assert (E : S g = Held i) by (apply (g_held _ _ _ HS); eauto).
  apply (r_handed _ _ _ HR) in H; destruct H as [H|(d & Hd & H)]; [apply (g_given _ _ _ HS) in H|apply (g_cur _ _ _ HS) in H]; congruence.
Qed.
Lemma pend_alloc a b : In (a, b) (pend F) -> exists n, heap (sm s) b = Some n.
Proof. intros H. destruct (fated_own _ _ HF) as (L & S & D & _ & Hf & HS & HR & Hm). apply (r_pend _ _ _ HR) in H. destruct H as [H _]. apply (g_under _ _ _ HS) in H. destruct (g_real _ _ _ HS _ _ H) as (na & nb & E & _). eauto. Qed.
Lemma handed_pend g q : In g (handed F) -> ~ In (q, g) (pend F).
Proof.
  intros H Hb. destruct (fated_own _ _ HF) as (L & S & D & _ & Hf & HS & HR & Hm). apply (r_pend _ _ _ HR) in Hb. destruct Hb as [Hb _]. apply (g_under _ _ _ HS) in Hb.
  apply (r_handed _ _ _ HR) in H; destruct H as [H|(d & Hd & H)]; [apply (g_given _ _ _ HS) in H|apply (g_cur _ _ _ HS) in H]; congruence.
Qed.
Lemma goes_low a b : In (a, b) (goes F) -> (b < a)%N.
Proof. intros H. destruct (fated_own _ _ HF) as (L & S & D & _ & Hf & HS & HR & Hm). apply (r_low _ _ _ HR _ _ H). Qed.
Lemma goes_alloc a b : In (a, b) (goes F) -> exists n, heap (sm s) b = Some n.
Proof.
  intros H. destruct (fated_own _ _ HF) as (L & S & D & _ & Hf & HS & HR & Hm). apply (r_goes _ _ _ HR) in H; destruct H as (n & _ & [[H _]|(d & q & _ & _ & H)]); apply (g_under _ _ _ HS) in H; destruct (g_real _ _ _ HS _ _ H) as (na & nb & E & _); eauto.
Qed.
Lemma under_alloc h x : (exists n, heap (sm s) h = Some n) -> under F h x -> exists n, heap (sm s) x = Some n.
Proof. intros H Hu. destruct Hu; auto. eapply goes_alloc; eauto. Qed.
Lemma one_of h g x : owner s F h -> owner s F g -> (exists n, heap (sm s) h = Some n) -> under F h x -> under F g x -> h = g.
Proof.
  intros Hh Hg Ha Hx Hy. destruct (fated_own _ _ HF) as (L & S & D & _ & Hf & HS & HR & Hm). destruct (under_alloc _ _ Ha Hx) as [n Hn].
  destruct (one_owner s L F S Hf HS HR) with (x := x) (y := n) as (g0 & _ & _ & Hu); auto; try (intros q y E; apply (mi_heap _ _ Hm) in E; apply E). rewrite (Hu h), (Hu g); auto.
Qed.
End Own.

(** What a step does to chains. *)
Record grows (s : sys) (F : flog) (s' : sys) (F' : flog) : Prop := {
  w_heap : forall p n, heap (sm s) p = Some n -> heap (sm s') p = Some n;
  w_tab : forall i q, tab (sm s') i = Some q -> tab (sm s) i = Some q \/ q = nptr (sm s) \/ exists p, blocked (sm s) i p q;
  w_goes : forall a b, In (a, b) (goes F) -> In (a, b) (goes F');
  w_new : forall a b, In (a, b) (goes F') -> In (a, b) (goes F) \/ a = nptr (sm s)
}.
Lemma grows_step s F e s' : fated s F -> sstep s e s' -> grows s F s' (fate s e F).
Proof.
  intros HF Hs. destruct (fated_own _ _ HF) as (L & S & D & _ & Hf & HS & HR & Hm).
  inversion Hs as [s0 t o fuel Hr|s0 t o p Hr Hnr Hne|s0 t o r Hr]; subst s0 e s'; [constructor; auto| |constructor; auto].
  assert (Same : fst (pstep (sm s) p) = sm s -> fate s (EStep t) F = F -> grows s F {| sm := fst (pstep (sm s) p); running := tset (running s) t (Some (o, snd (pstep (sm s) p))) |} (fate s (EStep t) F)).
  { intros E ->. constructor; cbn [sm]; rewrite ?E; auto. }
  assert (Fresh : forall q y z, heap (sm s) q = Some y -> heap (sm s) q = pfset (heap (sm s)) (nptr (sm s)) z q).
  { intros q y z Hq. rewrite pfset_ne; auto. intros ->. apply (low_alloc _ _ HF) in Hq. lia. }
  destruct p as [r|er|i k|i old n k|i old n k|k|old n k|n k].
  - destruct (Hnr r); auto.
  - destruct (Hne er); auto.
  - apply Same; [|cbn [fate]; rewrite Hr; auto]. cbn [pstep]. destruct (get (sm s) i); auto.
  - destruct (swaps (sm s) i old) eqn:Es.
    + apply swaps_eq in Es as Et. rewrite (swaps_cas _ _ _ _ _ Et). constructor; cbn [sm fst cas_mem heap tab].
      * intros q y Hq. rewrite <- (Fresh _ _ _ Hq). auto.
      * intros j q. unfold fset. destruct (Nat.eqb_spec j i); [intros E; injection E as <-; auto|auto].
      * intros a b H. apply (Fate.put_goes s F t o i old n k {| sm := cas_mem (sm s) i n; running := running s |} Hr Et eq_refl). auto.
      * intros a b H. apply (Fate.put_goes s F t o i old n k {| sm := cas_mem (sm s) i n; running := running s |} Hr Et eq_refl) in H. destruct H as [H|[(_ & _ & H & _)|[H _]]]; auto.
    + apply Same; [|cbn [fate]; rewrite Hr, Es; auto]. cbn [pstep]. unfold swaps in Es. destruct (tab (sm s) i) as [x|]; auto. rewrite Es. auto.
  - assert (Hu : unblocks s t i old n) by (exists o, k; auto). pose proof (unblocks_owes _ _ _ _ _ _ Hm Hu) as Ed.
    assert (Hb : blocked (sm s) i old n) by (apply (mi_hold _ _ Hm t); rewrite Ed; reflexivity). pose proof Hb as [Et [c Hc]]. apply swaps_eq in Et as Es.
    assert (EF : fate s (EStep t) F = {| handed := old :: handed F; goes := goes F; pend := pend F |}) by (cbn [fate]; rewrite Hr, Es; auto). rewrite EF.
    constructor; cbn [sm pstep goes]; rewrite ?Et, ?N.eqb_refl; cbn [fst heap tab]; auto. intros j q. unfold fset. destruct (Nat.eqb_spec j i); [intros E; injection E as <-; subst; eauto|auto].
  - apply Same; [auto|cbn [fate]; rewrite Hr; auto].
  - assert (EF : fate s (EStep t) F = F) by (cbn [fate]; rewrite Hr; auto). rewrite EF. constructor; cbn [sm pstep]; destruct (root (sm s) =? old); cbn [fst heap tab]; auto.
  - assert (EF : fate s (EStep t) F = F) by (cbn [fate]; rewrite Hr; auto). rewrite EF. constructor; cbn [sm pstep fst heap tab]; auto.
    + intros q y Hq. rewrite <- (Fresh _ _ _ Hq). auto.
    + intros j q. unfold fset. destruct (Nat.eqb_spec j (nid (sm s))); [intros E; injection E as <-; auto|auto].
Qed.
Lemma under_old s F s' F' h x : fated s F -> grows s F s' F' -> (h < nptr (sm s))%N -> under F' h x -> under F h x.
Proof.
  intros HF HG Hh Hu. assert (G : under F h x /\ (x <= h)%N); [|tauto]. induction Hu as [|a b Hu [IH IHl] Hin]; [split; [constructor|lia]|].
  destruct (w_new _ _ _ _ HG _ _ Hin) as [H| ->]; [|lia]. split; [econstructor; eauto|]. apply (goes_low _ _ HF) in H. lia.
Qed.

(** * The invariant *)
Section Run.
Variables n0 th : nat.
(** [B t]: garbage nodes there were when the operation of [t] joined its epoch;
    [D t]: pages taken out by then. *)
Record winv (B : nat -> nat) (D : nat -> nat -> Prop) (w : wst) : Prop := {
  v_fated : fated (w_s w) (w_f w);
  v_routed : routed (w_s w);
  v_ep : EpochProofs.Inv n0 (w_e w);
  v_hdr : forall t, n0 <= t -> Epoch.hdr (Epoch.slots (w_e w) t) = None;
  v_idle : forall t x, running (w_s w) t = Some x -> inop (Epoch.pcs (w_e w) t);
  v_held0 : forall t h, In h (w_held w t) -> inop (Epoch.pcs (w_e w) t);
  v_B : forall t, B t <= length (handed (w_f w));
  v_later : forall t n, inop (Epoch.pcs (w_e w) t) -> B t <= n -> n < length (handed (w_f w)) -> exists ops, In (n, ops) (Epoch.unl (w_e w)) /\ In (t, Epoch.opno (w_e w) t) ops;
  v_early : forall t n g d, n < B t -> handed_at (w_f w) n g -> tab (sm (w_s w)) d = Some g -> D t d;
  v_D : forall t d, D t d -> cut (sm (w_s w)) d;
  v_alloc : forall t h, In h (w_held w t) -> exists y, heap (sm (w_s w)) h = Some y;
  v_held : forall t h n g x, In h (w_held w t) -> n < B t -> handed_at (w_f w) n g -> under (w_f w) h x -> under (w_f w) g x -> False;
  v_avo : forall t o p, running (w_s w) t = Some (o, p) -> avo (D t) o p
}.
Lemma handed_in F n g : handed_at F n g -> In g (handed F).
Proof. intros H. apply nth_error_In in H. apply in_rev in H. auto. Qed.
Lemma handed_len F n g : handed_at F n g -> n < length (handed F).
Proof. intros H. rewrite <- rev_length. apply nth_error_Some. unfold handed_at in H. congruence. Qed.
Lemma handed_old F F' n g : handed F' = handed F \/ (exists g', handed F' = g' :: handed F) -> n < length (handed F) -> handed_at F' n g -> handed_at F n g.
Proof. unfold handed_at. intros [-> |[g' ->]] Hn; auto. simpl. rewrite nth_error_app1; auto. rewrite rev_length. auto. Qed.
Lemma winv_init : winv (fun _ => 0) (fun _ _ => False) winit.
Proof.
  assert (A : fated (w_s winit) (w_f winit)) by constructor. assert (R : routed (w_s winit)) by (intros t o p i c j Hr; discriminate). pose proof (EpochProofs.init_inv n0) as HI.
  constructor; auto; simpl; try discriminate; try tauto; try (intros; lia).
Qed.
Lemma step_hdr a e e' : EpochProofs.Inv n0 e -> Epoch.step n0 th a e = Some e' -> (forall t, n0 <= t -> Epoch.hdr (Epoch.slots e t) = None) -> forall t, n0 <= t -> Epoch.hdr (Epoch.slots e' t) = None.
Proof. intros HI E H. pose proof (EpochProofs.run_out n0 th [a] e HI H) as G. cbn [Epoch.run] in G. rewrite E in G. exact G. Qed.
Lemma winv_epoch B D w a e' : winv B D w -> alone w a -> Epoch.step n0 th a (w_e w) = Some e' ->
  exists B' D', winv B' D' {| w_s := w_s w; w_f := w_f w; w_e := e'; w_held := drop w a |}.
Proof.
  intros HV Ha He. assert (Hu : forall t x, a <> Epoch.AUnlink t x) by (intros t x ->; exact Ha). destruct (ep_step _ _ _ _ _ He Hu) as (E1 & E2 & E3).
  assert (Hdrop : forall t h, In h (drop w a t) -> In h (w_held w t) /\ a <> Epoch.ALeave t).
  { intros t h. unfold drop. destruct a; auto; try (split; [auto|discriminate]). unfold Epoch.upd. destruct (Nat.eqb_spec t t0); [intros []|]. split; auto. congruence. }
  assert (Hin : forall t x, running (w_s w) t = Some x -> inop (Epoch.pcs e' t)).
  { intros t x Hr. apply E3; [eapply (v_idle _ _ _ HV); eauto|]. intros ->. simpl in Ha. congruence. }
  assert (Hheld0 : forall t h, In h (drop w a t) -> inop (Epoch.pcs e' t)).
  { intros t h Hh. apply Hdrop in Hh as [Hh Hn]. apply E3; auto. eapply (v_held0 _ _ _ HV); eauto. }
  assert (Inv' : EpochProofs.Inv n0 e') by (eapply EpochProofs.step_inv; eauto; apply HV).
  assert (Hhdr : forall t, n0 <= t -> Epoch.hdr (Epoch.slots e' t) = None) by (apply (step_hdr a (w_e w) e'); auto; apply HV).
  assert (C : (exists t, a = Epoch.AStep t /\ ~ inop (Epoch.pcs (w_e w) t)) \/ forall t, inop (Epoch.pcs e' t) -> inop (Epoch.pcs (w_e w) t) /\ Epoch.opno e' t = Epoch.opno (w_e w) t).
  { destruct a as [|u|u x|u|u|u]; try (right; intros t Ht; destruct (E2 t Ht) as [[E _]|E]; [discriminate|exact E]; fail).
    destruct (Epoch.pcs (w_e w) u) eqn:Eu; try (left; exists u; rewrite Eu; simpl; tauto); right; intros t Ht; destruct (E2 t Ht) as [[E Hn]|E]; auto; injection E as <-; rewrite Eu in Hn; destruct Hn; exact I. }
  destruct C as [(u & -> & Hi)|C].
  - assert (Hh : w_held w u = []).
    { destruct (w_held w u) as [|h l] eqn:E; auto. assert (X : inop (Epoch.pcs (w_e w) u)) by (eapply (v_held0 _ _ _ HV); rewrite E; left; reflexivity). destruct (Hi X). }
    assert (Hr : running (w_s w) u = None) by (destruct (running (w_s w) u) eqn:E; auto; apply (v_idle _ _ _ HV) in E; destruct (Hi E)).
    exists (fun t => if t =? u then length (handed (w_f w)) else B t), (fun t => if t =? u then cut (sm (w_s w)) else D t). constructor; cbn [w_s w_f w_e w_held]; auto; try apply HV.
    + intros t. destruct (t =? u); [lia|apply HV].
    + intros t n Ht H1 H2. destruct (Nat.eqb_spec t u); [lia|]. rewrite E1. destruct (E2 t Ht) as [[E _]|[E E']]; [congruence|]. rewrite E'. eapply (v_later _ _ _ HV); eauto.
    + intros t n g d H1 H2 H3. destruct (Nat.eqb_spec t u); [|eapply (v_early _ _ _ HV); eauto]. eapply handed_cut; [apply HV|eapply handed_in; eauto|auto].
    + intros t d. destruct (t =? u); auto. apply HV.
    + cbn [drop]. intros t h n g x H1 H2. destruct (Nat.eqb_spec t u); [subst; rewrite Hh in H1; destruct H1|]. eapply (v_held _ _ _ HV); eauto.
    + intros t o p E. destruct (Nat.eqb_spec t u); [congruence|]. apply HV. auto.
  - exists B, D. constructor; cbn [w_s w_f w_e w_held]; auto; try apply HV.
    + intros t n Ht H1 H2. rewrite E1. destruct (C t Ht) as [E E']. rewrite E'. eapply (v_later _ _ _ HV); eauto.
    + intros t h H. apply Hdrop in H as [H _]. eapply (v_alloc _ _ _ HV); eauto.
    + intros t h n g x H. apply Hdrop in H as [H _]. eapply (v_held _ _ _ HV); eauto.
Qed.
Lemma winv_renew B D w : winv B D w -> (forall t, Epoch.pcs (w_e w) t = Epoch.Idle) -> winv B D {| w_s := w_s w; w_f := w_f w; w_e := renew n0 (w_e w); w_held := w_held w |}.
Proof.
  intros HV Hi. destruct (renew_inv n0 (w_e w)) as (H1 & H2 & H3); [apply HV|apply HV|auto|]. constructor; cbn [w_s w_f w_e w_held]; auto; try apply HV; rewrite ?H3; try apply HV.
  intros t n Ht. rewrite Hi in Ht. destruct Ht.
Qed.
(** What is told to the epoch manager. *)
Lemma told_facts t F F' e e' : told n0 th t F F' e e' -> EpochProofs.Inv n0 e -> Epoch.pcs e t = Epoch.Running ->
  EpochProofs.Inv n0 e' /\ (handed F' = handed F \/ exists g, handed F' = g :: handed F) /\
  (forall u, inop (Epoch.pcs e u) -> inop (Epoch.pcs e' u)) /\ inop (Epoch.pcs e' t) /\
  (forall u, inop (Epoch.pcs e' u) -> inop (Epoch.pcs e u) /\ Epoch.opno e' u = Epoch.opno e u) /\
  (forall y, In y (Epoch.unl e) -> In y (Epoch.unl e')) /\
  (forall n, length (handed F) <= n -> n < length (handed F') -> exists ops, In (n, ops) (Epoch.unl e') /\ forall u, inop (Epoch.pcs e u) -> In (u, Epoch.opno e u) ops) /\
  ((forall u, n0 <= u -> Epoch.hdr (Epoch.slots e u) = None) -> forall u, n0 <= u -> Epoch.hdr (Epoch.slots e' u) = None).
Proof.
  intros [[E ->]|(g & E & Hs)] HI Hp.
  - split; auto. split; auto. split; auto. split; [rewrite Hp; exact I|]. split; auto. split; auto. split; auto. rewrite E. intros; lia.
  - split; [eapply EpochProofs.step_inv; eauto|]. split; eauto. pose proof (step_hdr _ _ _ HI Hs) as Hh. cbn [Epoch.step] in Hs. rewrite Hp in Hs. destruct (existsb _ _); [discriminate|]. injection Hs as <-. cbn [Epoch.pcs Epoch.opno Epoch.unl] in *.
    assert (Hu : forall u, Epoch.upd (Epoch.pcs e) t (Epoch.Unlinking (length (handed F))) u = Epoch.pcs e u \/ u = t /\ Epoch.upd (Epoch.pcs e) t (Epoch.Unlinking (length (handed F))) u = Epoch.Unlinking (length (handed F))).
    { intros u. unfold Epoch.upd. destruct (Nat.eqb_spec u t); auto. }
    split; [intros u H; destruct (Hu u) as [-> |[_ ->]]; simpl; auto|]. split; [destruct (Hu t) as [-> |[_ ->]]; [rewrite Hp|]; exact I|].
    split; [intros u H; split; auto; destruct (Hu u) as [E'|[-> _]]; [rewrite E' in H; auto|rewrite Hp; exact I]|]. split; [intros y Hy; right; auto|]. split; auto.
    intros n H1 H2. rewrite E in H2. simpl in H2. assert (n = length (handed F)) by lia. subst n. eexists. split; [left; reflexivity|]. intros u Hr. unfold Epoch.running_ops. apply in_map_iff. exists u. split; auto. apply filter_In. split; [|unfold Epoch.known; destruct (Epoch.pcs e u); simpl in Hr |- *; auto; destruct Hr]. apply in_seq.
    destruct HI as (L & J & _ & HS & _). destruct (Nat.lt_ge_cases u n0); [lia|]. rewrite (EpochProofs.si_out _ _ _ _ HS) in Hr by auto. destruct Hr.
Qed.
(** A node got hold of is not under a node handed over before the operation. *)
Lemma take_ok B D w t o p s' h : winv B D w -> running (w_s w) t = Some (o, p) -> sstep (w_s w) (EStep t) s' -> sm s' = fst (pstep (sm (w_s w)) p) -> In h (takes (sm (w_s w)) (w_f w) p) ->
  let F' := fate (w_s w) (EStep t) (w_f w) in
  (exists y, heap (sm s') h = Some y) /\
  forall n g x, (forall g, In g (handed (w_f w)) -> In g (handed F')) -> n < B t -> handed_at (w_f w) n g -> under F' h x -> under F' g x -> False.
Proof.
  intros HV Hr Hs Em Hh F'. pose proof (v_fated _ _ _ HV) as HF. assert (HF' : fated s' F') by (econstructor; eauto). pose proof (v_avo _ _ _ HV _ _ _ Hr) as Hav. unfold avo in Hav.
  assert (New : forall i, tab (sm s') i = Some (nptr (sm (w_s w))) -> h = nptr (sm (w_s w)) ->
    (exists y, heap (sm s') h = Some y) /\ forall n g x, (forall g, In g (handed (w_f w)) -> In g (handed F')) -> n < B t -> handed_at (w_f w) n g -> under F' h x -> under F' g x -> False).
  { intros i Ht ->. assert (Ha : exists y, heap (sm s') (nptr (sm (w_s w))) = Some y) by (eapply tab_alloc; eauto). split; auto. intros n g x HH Hn Hg U1 U2. apply handed_in in Hg.
    assert (E : nptr (sm (w_s w)) = g) by (eapply (one_of s' F'); eauto; [left; eauto|right; right; right; auto]). apply (handed_low _ _ HF) in Hg. lia. }
  destruct p as [r|er|i k|i old n k|i old n k|k|old n k|n k]; cbn [takes] in Hh; try contradiction.
  - assert (EF : F' = w_f w) by (unfold F'; cbn [fate]; rewrite Hr; auto). assert (Es : sm s' = sm (w_s w)) by (rewrite Em; cbn [pstep]; destruct (get (sm (w_s w)) i); auto). rewrite EF, Es.
    apply in_flat_map in Hh as (q & Hq & Hh). apply in_entry in Hq. destruct Hh as [<-|Hh].
    + split; [eapply tab_alloc; eauto|]. intros n g x _ Hn Hg U1 U2. assert (E : q = g).
      { eapply (one_of (w_s w) (w_f w)); eauto; [left; eauto|right; right; right; eapply handed_in; eauto|eapply tab_alloc; eauto]. }
      subst g. cbn [av] in Hav. apply (proj1 Hav). eapply (v_early _ _ _ HV); eauto.
    + apply in_app_iff in Hh as [Hh|Hh].
      2: { unfold next_removed in Hh. destruct (heap (sm (w_s w)) q) as [nq|] eqn:Eq; [|contradiction]. destruct (is_remove nq) eqn:Er; [contradiction|]. destruct (nhigh nq) as [[hk d]|] eqn:Ehi; [|contradiction].
        apply in_flat_map in Hh as (r & Hrr & Hh). apply in_entry in Hrr. apply in_below in Hh. destruct (pend_alloc _ _ HF _ _ Hh) as [y Hy]. split; [exists y; exact Hy|]. intros n g x _ Hn Hg U1 U2. apply handed_in in Hg.
        destruct (fated_own _ _ HF) as (L & _ & _ & Hl & _). destruct (linv_lived _ _ Hl) as [wl Hwl].
        assert (Hm : ~ merged (sm (w_s w)) d) by (eapply next_unmerged; eauto; [eapply linv_pub; eauto|apply get_intro; eauto]).
        assert (E : h = g) by (eapply (one_of (w_s w) (w_f w)); eauto; [right; right; left; eauto|right; right; right; auto]).
        subst g. exact (handed_pend _ _ HF _ _ Hg Hh). }
      unfold below_marker in Hh. destruct (heap (sm (w_s w)) q) as [[|[| | | | | |p c]]|] eqn:Eq; try contradiction. destruct Hh as [<-|[]]. assert (Hb : blocked (sm (w_s w)) i q p) by (split; eauto).
      split; [eapply blocked_alloc; eauto|]. intros n g x _ Hn Hg U1 U2. apply handed_in in Hg. assert (E : p = g).
      { eapply (one_of (w_s w) (w_f w)); eauto; [right; left; eauto|right; right; right; auto|eapply blocked_alloc; eauto]. }
      subst g. exact (handed_free _ _ HF _ _ _ Hg Hb).
  - destruct (swaps (sm (w_s w)) i old) eqn:Es; [|contradiction]. destruct Hh as [<-|[]]. apply swaps_eq in Es. apply (New i); auto. rewrite Em, (swaps_cas _ _ _ _ _ Es). apply fset_eq.
  - destruct Hh as [<-|[]]. apply (New (nid (sm (w_s w)))); auto. rewrite Em. apply fset_eq.
Qed.
Lemma winv_tree B D w e s' e' : winv B D w -> Epoch.pcs (w_e w) (thread_of e) = Epoch.Running -> sstep (w_s w) e s' ->
  told n0 th (thread_of e) (w_f w) (fate (w_s w) e (w_f w)) (w_e w) e' -> routed s' ->
  winv B D {| w_s := s'; w_f := fate (w_s w) e (w_f w); w_e := e'; w_held := hold w e |}.
Proof.
  intros HV Hp Hs Ht HR. pose proof (v_fated _ _ _ HV) as HF. assert (HF' : fated s' (fate (w_s w) e (w_f w))) by (econstructor; eauto). pose proof (grows_step _ _ _ _ HF Hs) as HG.
  destruct (told_facts _ _ _ _ _ Ht (v_ep _ _ _ HV) Hp) as (T1 & T2 & T3 & T4 & T5 & T6 & T7 & T8). destruct (fated_own _ _ HF) as (L & S & Dm & Hl & _). destruct (linv_lived _ _ Hl) as [wl Hwl].
  assert (Hold : forall t h, In h (hold w e t) -> In h (w_held w t) \/ exists o p, e = EStep t /\ running (w_s w) t = Some (o, p) /\ In h (takes (sm (w_s w)) (w_f w) p)).
  { intros t h. unfold hold. destruct e; auto. destruct (running (w_s w) t0) as [[o p]|] eqn:Er; auto. unfold Epoch.upd. destruct (Nat.eqb_spec t t0); auto. subst t0. rewrite in_app_iff. intros [H|H]; eauto 8. }
  assert (Hrun : forall t x, running s' t = Some x -> t = thread_of e \/ running (w_s w) t = Some x).
  { intros t x. inversion Hs; subst; cbn [running thread_of]; unfold tset; destruct (Nat.eqb_spec t t0); auto. }
  assert (Hlen : length (handed (w_f w)) <= length (handed (fate (w_s w) e (w_f w)))) by (destruct T2 as [-> |[g ->]]; simpl; lia).
  assert (Hinc : forall g, In g (handed (w_f w)) -> In g (handed (fate (w_s w) e (w_f w)))) by (destruct T2 as [-> |[g ->]]; simpl; auto).
  assert (Hnew : forall t o p, e = EStep t -> running (w_s w) t = Some (o, p) -> sm s' = fst (pstep (sm (w_s w)) p) /\ running s' t = Some (o, snd (pstep (sm (w_s w)) p))).
  { intros t o p -> Hr. inversion Hs; subst. cbn [sm running]. assert (E : (o0, p0) = (o, p)) by congruence. injection E as -> ->. split; auto. unfold tset. rewrite Nat.eqb_refl. auto. }
  pose proof (v_B _ _ _ HV) as HB. constructor; cbn [w_s w_f w_e w_held]; auto.
  - apply T8, HV.
  - intros t x Hr. destruct (Hrun _ _ Hr) as [-> |Hr']; auto. apply T3. eapply (v_idle _ _ _ HV); eauto.
  - intros t h Hh. apply Hold in Hh as [Hh|(o & p & -> & _)]; auto. apply T3. eapply (v_held0 _ _ _ HV); eauto.
  - intros t. specialize (HB t). lia.
  - intros t n Hr H1 H2. destruct (T5 t Hr) as [Hr' ->]. destruct (Nat.lt_ge_cases n (length (handed (w_f w)))) as [Hn|Hn].
    + destruct (v_later _ _ _ HV t n) as (ops & A & C); auto. eauto.
    + destruct (T7 n Hn H2) as (ops & A & C). eauto.
  - intros t n g d Hn Hg Hd. specialize (HB t). assert (Hg' : handed_at (w_f w) n g) by (eapply handed_old; eauto; lia). apply (w_tab _ _ _ _ HG) in Hd as [Hd|[-> |[p Hd]]].
    + eapply (v_early _ _ _ HV); eauto.
    + apply handed_in, (handed_low _ _ HF) in Hg'. lia.
    + apply handed_in in Hg'. destruct (handed_free _ _ HF _ _ _ Hg' Hd).
  - intros t d Hd. apply (v_D _ _ _ HV) in Hd. refine (cut_heap _ _ _ (w_heap _ _ _ _ HG) Hd).
  - intros t h Hh. apply Hold in Hh as [Hh|(o & p & -> & Hr & Hh)].
    + destruct (v_alloc _ _ _ HV _ _ Hh) as [y Hy]. exists y. apply (w_heap _ _ _ _ HG). auto.
    + destruct (Hnew t o p eq_refl Hr) as [Em _]. apply (take_ok B D w t o p s' h HV Hr Hs Em Hh).
  - intros t h n g x Hh Hn Hg U1 U2. specialize (HB t). assert (Hg' : handed_at (w_f w) n g) by (eapply handed_old; eauto; lia). apply Hold in Hh as [Hh|(o & p & -> & Hr & Hh)].
    + destruct (v_alloc _ _ _ HV _ _ Hh) as [y Hy]. apply (under_old _ _ _ _ _ _ HF HG) in U1; [|eapply low_alloc; eauto]. apply (under_old _ _ _ _ _ _ HF HG) in U2; [|eapply handed_low; eauto; eapply handed_in; eauto]. eapply (v_held _ _ _ HV); eauto.
    + destruct (Hnew t o p eq_refl Hr) as [Em _]. destruct (take_ok B D w t o p s' h HV Hr Hs Em Hh) as [_ X]. eapply X; eauto.
  - intros t o p Hr. destruct (Hrun _ _ Hr) as [Et|Hr']; [|apply HV; auto]. inversion Hs as [s0 u o1 fuel Hr1|s0 u o1 p1 Hr1 Hnr Hne|s0 u o1 r Hr1]; subst s0 e; cbn [thread_of] in Et; subst u; clear Hs.
    + subst s'. cbn [running] in Hr. unfold tset in Hr. rewrite Nat.eqb_refl in Hr. injection Hr as <- <-. apply code_av. intros Hd. apply (v_D _ _ _ HV) in Hd. eapply first_uncut; eauto.
    + destruct (Hnew t o1 p1 eq_refl Hr1) as [Em Er]. rewrite Er in Hr. injection Hr as <- <-. eapply avo_step; eauto; try apply HV; auto. subst s'. constructor; auto.
    + subst s'. cbn [running] in Hr. unfold tset in Hr. rewrite Nat.eqb_refl in Hr. discriminate.
Qed.
Lemma winv_run w : wrun n0 th routed w -> exists B D, winv B D w.
Proof.
  induction 1 as [|w w' H IH Hs HR]; [exists (fun _ => 0), (fun _ _ => False); apply winv_init|destruct IH as (B & D & HV)]. inversion Hs as [w0 a e' Ha He|w0 e s' e' Hp Hst Ht|w0 Hi]; subst.
  - eapply winv_epoch; eauto.
  - exists B, D. eapply winv_tree; eauto.
  - exists B, D. apply winv_renew; auto.
Qed.
Lemma held_safe w t h x : wrun n0 th routed w -> In h (w_held w t) -> under (w_f w) h x -> ~ released w x.
Proof.
  intros H Hh Hx (n & g & Hf & Hg & Hu). destruct (winv_run _ H) as (B & D & HV). destruct (Nat.lt_ge_cases n (B t)) as [Hn|Hn]; [eapply (v_held _ _ _ HV); eauto|].
  destruct (v_later _ _ _ HV t n) as (ops & A & C); auto; [eapply (v_held0 _ _ _ HV); eauto|eapply handed_len; eauto|].
  destruct (v_ep _ _ _ HV) as (L & J & _ & HS & _). eapply (EpochProofs.si_fr _ _ _ _ HS); eauto. apply inop_running. eapply (v_held0 _ _ _ HV); eauto.
Qed.
End Run.
End ReleaseExec.
