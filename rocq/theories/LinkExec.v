(** The invariant of Links holds throughout every execution. *)
From Coq Require Import NArith List Arith Lia Bool ZArith.
From Verif Require Import Base Leaf LeafSpec Inner InnerSpec Tree TreeSpec TreeInv TreeSafe TreeProg TreeLin TreeRoom MarkerSpec Marker GarbageSpec Garbage LinkSpec Links LinkProg.
Import ListNotations.

Section LinkExec.
Context {P : Params}.
Definition linv (s : sys) (L : log) (w : world) : Prop := exists tr ss g lv Own, let x := {| gw := w; lev := lv; gl := L |} in
  exec tr ss s /\ TreeLin.ginv false tr s ss w g /\ gok x /\ (forall t o p, running s t = Some (o, p) -> lk p (Own t) anyk x) /\
  (forall t, own_of (g t) = option_map fst (Own t) /\ holds (Own t) x).

Lemma gok_init : gok {| gw := winit; lev := fun i => if i =? 1 then 1 else 0; gl := {| given := []; over := [] |} |}.
Proof.
  assert (Hh : forall p n, heap (wm winit) p = Some n -> n = NInner (IBase 0 None FIRST_LEAF [(kdef, FIRST_LEAF)] None) \/ n = NLeaf (LBase None [] None)).
  { intros [|[q|q|]] n E; inversion E; auto. }
  assert (Hn : forall i n, node_of (wm winit) i = Some n -> i = 1 /\ n = NInner (IBase 0 None FIRST_LEAF [(kdef, FIRST_LEAF)] None) \/ i = 2 /\ n = NLeaf (LBase None [] None)).
  { intros [|[|[|i]]] n E; inversion E; auto. }
  assert (Hm : forall d, ~ merged (wm winit) d) by (intros d (p & n & Hp & Hd); destruct (Hh _ _ Hp) as [->| ->]; contradiction).
  assert (Hc : forall d, ~ cut (wm winit) d) by (intros d (p & n & Hp & Hd); destruct (Hh _ _ Hp) as [->| ->]; contradiction).
  assert (Hx : forall i d, ~ nx (wm winit) i d) by (intros i d (n & h & E & Ed); destruct (Hn _ _ E) as [[_ ->]|[_ ->]]; discriminate).
  constructor; unfold gm; cbn [gw lev gl].
  - apply wok_init.
  - intros i j a b _ _ El Ha Hb. left. destruct (Hn _ _ Ha) as [[-> _]|[-> _]], (Hn _ _ Hb) as [[-> _]|[-> _]]; auto; discriminate.
  - intros i d _ H. destruct (Hx _ _ H).
  - intros p n d Hp Hd. destruct (Hm d). exists p, n. auto.
  - intros i d _ H. destruct (Hx _ _ H).
  - intros i n d _ E Hr. destruct (Hn _ _ E) as [[-> ->]|[-> ->]]; [|contradiction]. assert (d = 2) as -> by (simpl in Hr; unfold FIRST_LEAF in *; intuition congruence). reflexivity.
  - intros i [->| ->]; simpl; auto.
  - intros d H. destruct (Hc _ H).
  - intros d H. destruct (Hc _ H).
  - intros i n d _ _ _ H. destruct (Hc _ H).
  - intros p q n n' d Hp _ Hd. destruct (Hm d). exists p, n. auto.
  - intros p q n n' d Hp _ Hd. destruct (Hc d). exists p, n. auto.
  - intros i p _ [[]|[b []]].
  - intros p n Hp. destruct (Hh _ _ Hp) as [->| ->]; exact I.
  - intros p q c Hp. destruct (Hh _ _ Hp); discriminate.
Qed.
Lemma note_stale s e L p : stale L p -> stale (note s e L) p.
Proof.
  intros H. destruct e as [| t |]; simpl; auto. destruct (running s t) as [[o [| | |i old n k|i old n k| | |]]|]; auto; destruct (swaps _ _ _); auto.
  - destruct (is_delta n); [|destruct H as [H|[b H]]; [left; right; auto|right; exists b; auto]].
    destruct n as [|[]]; auto; destruct H as [H|[b H]]; try (left; exact H); right; exists b; right; auto.
  - destruct H as [H|[b H]]; [left; right; auto|right; exists b; auto].
Qed.
Lemma cas_mark s D t o i old n k : minv s D -> running s t = Some (o, Cas i old n k) -> markok (cw (sm s)) n.
Proof.
  intros H Hr. pose proof (mi_run _ _ H _ _ _ Hr) as Hd. destruct (D t) as [|i' a' q'|i' a' q']; try contradiction.
  - destruct (Hd _ (cle_refl _)) as (_ & _ & [[Hu _]|(c & -> & Hw & Hu & _)]); [|split; auto]. destruct n as [|[]]; try exact I. contradiction.
  - destruct Hd as (_ & Hu & _). destruct n as [|[]]; try exact I. contradiction.
Qed.
Lemma swaps_eq m i o : swaps m i o = true <-> tab m i = Some o.
Proof. unfold swaps. destruct (tab m i) as [x|]; [|split; discriminate]. rewrite N.eqb_eq. split; congruence. Qed.
Lemma cas_stale s t o i old n k L : running s t = Some (o, Cas i old n k) -> tab (sm s) i = Some old -> unmarked n -> stale (note s (EStep t) L) old.
Proof.
  intros Hr Ht Hu. cbn [note]. rewrite Hr. apply swaps_eq in Ht. rewrite Ht. destruct (is_delta n); [|left; left; auto].
  destruct n as [c|c]; [right; eexists; left; reflexivity|]. destruct c; try (right; eexists; left; reflexivity). contradiction.
Qed.

Lemma linv_pub s L w t o p i : linv s L w -> running s t = Some (o, p) -> (exists k, p = PLoad i k) \/ (exists a n k, p = Cas i a n k /\ tab (sm s) i = Some a) -> pub w i.
Proof.
  intros (tr & ss & g & lv & Own & Hx & Hg & _) Hr Hi. pose proof (gi_thread _ _ _ _ _ _ Hg t) as Ht. destruct (g t) as [|o' own h|o' r]; simpl in Ht; [congruence| |rewrite Hr in Ht; injection Ht as <- ->; destruct Hi as [[k E]|(a & n & k & E & _)]; discriminate].
  destruct Ht as (p0 & E & Hsf & Hgd & Hn & _). rewrite Hr in E. injection E as <- <-. destruct Hi as [[k ->]|(a & n & k & -> & Hta)].
  - destruct (Hsf h (hext_refl _ _ Hgd)) as [H _]. rewrite Hn in H. exact H.
  - destruct (Hsf h (hext_refl _ _ Hgd)) as [_ H]. rewrite Hn in H. destruct H as [H _]; auto. rewrite (gi_mem _ _ _ _ _ _ Hg). auto.
Qed.
Lemma linv_init : linv sinit {| given := []; over := [] |} winit.
Proof.
  exists [], [sinit], (fun _ => TIdle), (fun i => if i =? 1 then 1 else 0), (fun _ => None). split; [constructor|]. split; [apply TreeLin.ginv_init|]. split; [apply gok_init|].
  split; [discriminate|]. intros t. split; auto. exact I.
Qed.
Lemma linv_step s L w e s' : lived s L -> linv s L w -> sstep s e s' -> exists w', le w w' /\ linv s' (note s e L) w'.
Proof.
  intros Hl IH Hs. pose proof IH as IH0. destruct IH as (tr & ss & g & lv & Own & IH). set (x := {| gw := w; lev := lv; gl := L |}) in *. cbv zeta in IH. destruct IH as (Hx & Hg & Hk & Hrun & Hown).
  pose proof (X_step _ _ _ _ _ Hx Hs) as Hx'. assert (Hl' : lived s' (note s e L)) by (econstructor; eauto).
  destruct (exec_minv _ _ _ Hx) as [D Hmi]. destruct (exec_minv _ _ _ Hx') as [D' Hmi']. destruct (lived_ginv _ _ Hl') as [St HSt].
  assert (Hcur' : forall j p, tab (sm s') j = Some p -> ~ stale (note s e L) p).
  { intros j p Ht [H|[b H]]; apply (g_cur _ _ _ HSt) in Ht; [apply (g_given _ _ _ HSt) in H|apply (g_under _ _ _ HSt) in H]; congruence. }
  assert (Eg : gm x = sm s) by (apply (gi_mem _ _ _ _ _ _ Hg)).
  inversion Hs as [s0 t o fuel Hr|s0 t o p Hr Hnr Hne|s0 t o r Hr]; subst s0 e s'; clear Hs.
  - exists w. split; [apply le_refl|]. exists (ECall t o :: tr), ({| sm := sm s; running := tset (running s) t (Some (o, code fuel o)) |} :: ss), (tset g t (TRun o None [w])), lv, (tset Own t None). split; auto.
    split; [apply TreeLin.step_call; auto; eapply exec_head; eauto|]. split; [exact Hk|]. split.
    + intros u o' p'. cbn [running]. destruct (Nat.eq_dec u t) as [->|Hu]; [rewrite !tset_same; intros E; injection E as <- <-; apply code_lk; exact Hk|]. rewrite !tset_other by auto. apply Hrun.
    + intros u. destruct (Nat.eq_dec u t) as [->|Hu]; [rewrite !tset_same; split; auto; exact I|]. rewrite !tset_other by auto. apply Hown.
  - destruct (TreeLin.step_full _ _ _ _ _ _ _ _ _ Hg Hr Hnr) as (_ & w' & g' & Hg' & Hgu & Hw & Hoth & Hnew & Hold).
    set (s' := {| sm := fst (pstep (sm s) p); running := tset (running s) t (Some (o, snd (pstep (sm s) p))) |}) in *. set (L' := note s (EStep t) L) in *.
    assert (Em' : wm w' = fst (pstep (sm s) p)) by (apply (gi_mem _ _ _ _ _ _ Hg')).
    assert (Hcur : forall j q, tab (wm w') j = Some q -> ~ stale L' q) by (intros j q; rewrite Em'; apply Hcur').
    pose proof (Hrun _ _ _ Hr) as Hp. destruct (Hown t) as [Eo Ho].
    assert (Fin : forall lv' own', let x' := {| gw := w'; lev := lv'; gl := L' |} in gok x' -> gle x x' -> lk (snd (pstep (sm s) p)) own' anyk x' -> own_of (g' t) = option_map fst own' -> holds own' x' -> exists w', le w w' /\ linv s' L' w').
    { intros lv' own' x' Hk' Hle Hp' Eo' Ho'. exists w'. split; [apply (e_le _ _ Hle)|]. exists (EStep t :: tr), (s' :: ss), g', lv', (tset Own t own'). split; auto. split; auto. split; auto. split.
      - intros u o' p' Hu. destruct (Nat.eq_dec u t) as [->|Hne'].
        + rewrite tset_same. cbn [running s'] in Hu. rewrite tset_same in Hu. injection Hu as <- <-. exact Hp'.
        + rewrite tset_other by auto. cbn [running s'] in Hu. rewrite tset_other in Hu by auto. apply (lk_le _ _ _ x); auto. eapply Hrun; eauto.
      - intros u. destruct (Nat.eq_dec u t) as [->|Hne']; [rewrite tset_same; auto|]. rewrite tset_other by auto. rewrite Hoth by auto. destruct (Hown u) as [E1 E2]. split; auto.
        destruct (Own u) as [[j nj]|]; [|exact I]. simpl in E1. destruct E2 as (F1 & F2 & q & F3). destruct (g_keep _ _ _ Hgu j) as [G1 G2]; auto.
        { intros E. apply Hne'. eapply (gi_uniq _ _ _ _ _ _ Hg); eauto. }
        split; auto. split; [eapply Nat.lt_le_trans; [exact F2|apply (e_nid _ _ Hle)]|]. exists q. unfold gm. cbn [gw x']. rewrite G2. exact F3. }
    (* nothing is changed *)
    assert (Quiet : ~ hits (sm s) p -> L' = L -> (Own t = None \/ ~ loads p) -> (forall n k, p <> NewNode n k) -> lk (snd (pstep (sm s) p)) None anyk x -> exists w', le w w' /\ linv s' L' w').
    { intros Hh EL Hlo Hnn Hp'. destruct Hw as [->|Hw]; [|contradiction]. apply (Fin lv None); rewrite ?EL; auto; [apply gle_refl| |exact I].
      destruct (Hold Hnn) as [E|[Hld E]]; auto. rewrite E, Eo. destruct Hlo as [->|Hlo]; [auto|contradiction]. }
    assert (Hpub : forall i, (exists k, p = PLoad i k) \/ (exists a n k, p = Cas i a n k /\ tab (sm s) i = Some a) -> pub w i).
    { intros i Hi. eapply linv_pub; eauto. }
    assert (Hst : forall q, stale L q -> stale L' q) by (intros; apply note_stale; auto).
    destruct p as [r|er|i k|i old n k|i old n k|k|old n k|n k].
    + destruct (Hnr r); auto.
    + destruct (Hne er); auto.
    + destruct Hp as [En Hp]. apply Quiet; auto; try discriminate; [unfold L'; cbn [note]; rewrite Hr; auto|]. cbn [pstep]. destruct (get (sm s) i) as [[q n]|] eqn:E; [|exact I].
      apply Hp; auto; [apply gle_refl|apply Hpub; eauto|rewrite Eg; auto].
    + destruct (Hp x (gle_refl _) Hk Ho) as [Hp1 Hp2]. destruct (swaps (sm s) i old) eqn:Es.
      * apply swaps_eq in Es as Et. assert (Hpi : pub w i) by (apply Hpub; right; eauto 6). destruct (cas_facts _ _ _ _ _ _ _ _ Hmi Hr) as [(no & Hno & Hlv & _) Hmq].
        rewrite <- Eg in Et, Hno. pose proof Em' as Em. cbn [pstep] in Em. rewrite <- Eg in Em. rewrite Et, N.eqb_refl in Em. cbn [fst] in Em. fold (cas_mem (gm x) i n) in Em.
        assert (Hg2 : pub w' i) by (apply (g_le _ _ _ Hgu); auto).
        destruct (Hp2 no Et Hpi Hno Hlv) as [HK Hc]; [exists w'; split; auto; split; [apply Hgu|split; [auto|apply Hgu]]|].
        rewrite Eo in Hgu. assert (Hmk : markok (cw (gm x)) n) by (rewrite Eg; eapply cas_mark; eauto).
        assert (Hso : unmarked n -> stale L' old) by (intros; eapply cas_stale; eauto; rewrite <- Eg; auto).
        assert (Hk' : gok {| gw := w'; lev := lev x; gl := L' |}) by (eapply cas_gok; eauto). assert (Hle : gle x {| gw := w'; lev := lev x; gl := L' |}) by (eapply cas_gle; eauto).
        apply (Fin lv None); auto; [| |exact I].
        -- cbn [pstep]. rewrite <- Eg, Et, N.eqb_refl. cbn [snd]. apply Hc; auto. apply sk_load; auto. unfold gm at 1. cbn [gw]. rewrite Em. apply get_intro; simpl; [apply fset_eq|apply pfset_eq].
        -- destruct Hold as [E|[[] _]]; [discriminate|]. auto.
      * assert (Et : tab (sm s) i <> Some old) by (intros E; apply swaps_eq in E; congruence).
        apply Quiet; auto; try discriminate; [unfold L'; cbn [note]; rewrite Hr, Es; auto|]. cbn [pstep]. destruct (tab (sm s) i) as [a|]; [|exact Hp1].
        destruct (N.eqb a old) eqn:E; [|exact Hp1]. apply N.eqb_eq in E. congruence.
    + destruct Hp as [En Hp]. assert (Hu : unblocks s t i old n) by (exists o, k; auto). pose proof (unblocks_owes _ _ _ _ _ _ Hmi Hu) as Ed.
      assert (Hb : blocked (gm x) i old n) by (rewrite Eg; apply (mi_hold _ _ Hmi t); rewrite Ed; reflexivity). pose proof (proj1 Hb) as Et. rewrite Eg in Et.
      pose proof Em' as Em. cbn [pstep] in Em. rewrite Et, N.eqb_refl in Em. cbn [fst] in Em. rewrite <- Eg in Em. fold (ptr_mem (gm x) i n) in Em.
      rewrite Eo, En in Hgu. assert (Hsp : stale L' old) by (unfold L'; cbn [note]; rewrite Hr; apply swaps_eq in Et; rewrite Et; left; left; auto).
      destruct (ptr_step x i old n w' L') as [Hk' Hle]; auto. apply (Fin lv None); auto; [| |exact I].
      * cbn [pstep]. rewrite Et, N.eqb_refl. apply Hp; auto.
      * destruct Hold as [E|[[] _]]; [discriminate|]. auto.
    + destruct Hp as [En Hp]. apply Quiet; auto; try discriminate; [unfold L'; cbn [note]; rewrite Hr; auto|]. cbn [pstep snd]. rewrite <- Eg. apply Hp; auto. apply gle_refl.
    + destruct (Hp x (gle_refl _) Hk Ho) as [Hp1 Hp2]. assert (EL : L' = L) by (unfold L'; cbn [note]; rewrite Hr; auto). destruct (Nat.eq_dec (root (sm s)) old) as [Er|Er].
      * pose proof Em' as Em. cbn [pstep] in Em. rewrite Er, Nat.eqb_refl in Em. cbn [fst] in Em. rewrite <- Eg in Em. fold (root_mem (gm x) n) in Em. rewrite <- Eg in Er.
        rewrite Eo in Hgu. destruct (root_step x (Own t) old n w') as [Hk' Hle]; auto. change (gl x) with L in *. rewrite <- EL in Hk', Hle. apply (Fin lv None); auto; [| |exact I].
        -- cbn [pstep]. rewrite <- Eg, Er, Nat.eqb_refl. apply Hp2; auto.
        -- destruct Hold as [E|[[] _]]; [discriminate|]. auto.
      * apply Quiet; auto; try discriminate. cbn [pstep]. apply Nat.eqb_neq in Er. rewrite Er. apply Hp2; auto. apply gle_refl.
    + destruct Hp as [En Hp]. assert (EL : L' = L) by (unfold L'; cbn [note]; rewrite Hr; auto). destruct (Hp x (gle_refl _) Hk) as [l Hq]. destruct (Hnew _ _ eq_refl) as [E1 E2].
      pose proof Em' as Em. cbn [pstep fst] in Em. rewrite <- Eg in Em. fold (new_mem (gm x) n) in Em. rewrite Eo, En in Hgu.
      assert (Hdn : is_delta n = false) by (pose proof (mi_run _ _ Hmi _ _ _ Hr) as Hd; destruct (D t); try contradiction; apply Hd).
      destruct (new_step x n w' l) as (Hk' & Hle & Hget); auto; [change (gl x) with L; rewrite <- EL; auto|]. change (gl x) with L in Hk', Hle. rewrite <- EL in Hk', Hle.
      assert (Hlt : nid (gm x) < nid (wm w')) by (rewrite Em; simpl; lia).
      apply (Fin (put_lev lv (nid (gm x)) l) (Some (nid (gm x), n))); auto.
      * cbn [pstep snd]. rewrite <- Eg. apply Hq; auto. apply put_eq.
      * split; auto. split; auto. exists (nptr (gm x)). exact Hget.
  - pose proof (Hrun _ _ _ Hr) as [En _]. exists w. split; [apply le_refl|]. exists (ERet t o r :: tr), ({| sm := sm s; running := tset (running s) t None |} :: ss), (tset g t TIdle), lv, Own. split; auto.
    split; [apply TreeLin.step_ret; auto; discriminate|]. split; [exact Hk|]. split.
    + intros u o' p'. cbn [running]. destruct (Nat.eq_dec u t) as [->|Hu]; [rewrite tset_same; discriminate|]. rewrite tset_other by auto. apply Hrun.
    + intros u. destruct (Nat.eq_dec u t) as [->|Hu]; [rewrite tset_same, En; split; auto; exact I|]. rewrite tset_other by auto. apply Hown.
Qed.
Lemma linv_lived s L : lived s L -> exists w, linv s L w.
Proof. induction 1 as [|s L e s' Hl [w IH] Hs]; [eexists; apply linv_init|]. destruct (linv_step _ _ _ _ _ Hl IH Hs) as (w' & _ & H). eauto. Qed.
Lemma linv_gok s L w : linv s L w -> exists lv, wm w = sm s /\ gok {| gw := w; lev := lv; gl := L |}.
Proof. intros (tr & ss & g & lv & Own & _ & Hg & Hk & _). exists lv. split; auto. apply (gi_mem _ _ _ _ _ _ Hg). Qed.
Lemma lived_gok s L : lived s L -> exists w lv, wm w = sm s /\ gok {| gw := w; lev := lv; gl := L |}.
Proof. intros H. destruct (linv_lived _ _ H) as [w Hw]. destruct (linv_gok _ _ _ Hw) as (lv & A & B). eauto. Qed.
End LinkExec.
