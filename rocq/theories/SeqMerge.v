(** Merging a removed page into its left sibling in single-threaded runs. *)
From Coq Require Import NArith List Arith Lia Bool ZArith Sorted.
From Verif Require Import Base Leaf LeafSpec LeafProofs LeafProofs2 Inner InnerSpec InnerProofs InnerProofs2 Tree TreeSpec TreeInv TreeProg SeqTree SeqTree2 SeqPot SeqUp SeqProg SeqAdjust SeqSmo.
Import ListNotations.

Section SeqMerge.
Context {P : Params}.

Lemma remrun_mayrem N l1 i R l2 k : remrun N (l1 ++ (i, None) :: (R, None) :: l2) k -> rem N R = true -> lolt (nlo N i) (nlo N R) -> mayrem N k i l2.
Proof.
  intros (A & B & C & E & HA & HB & HC & Hk) HR Hlt. rewrite app_cons_comm in E. symmetry in E.
  destruct (cell_split A B C (R, None) (l1 ++ [(i, None)]) l2 E) as [(a1 & a2 & -> & _)|[(b1 & b2 & -> & _ & ->)|(c1 & c2 & -> & _)]].
  - exfalso. apply Forall_app in HA as [_ HA]. inversion HA; subst. unfold live in *. simpl in *. congruence.
  - destruct b2 as [|[R2 o2] b2].
    + left. destruct Hk as [Hk|[HC2 HB2]]; [destruct b1; discriminate|]. split; auto. apply Forall_app in HB2 as [_ HB2]. inversion HB2; subst. eapply lolt_above; eauto.
    + right. exists R2, o2, (b2 ++ C). split; auto. apply Forall_app in HB as [_ HB]. inversion HB as [|? ? ? HB']; subst. inversion HB'; subst. auto.
  - exfalso. apply Forall_app in HC as [_ HC]. inversion HC; subst. unfold live in *. simpl in *. congruence.
Qed.

Definition merged (mk : K) (R : nat) (nr n nm : node) : Prop :=
  match nr, n with
  | NLeaf (LRemove _ rc), NLeaf lc => nm = NLeaf (LMerge mk R rc lc)
  | NInner (IRemove _ rc), NInner lc => nm = NInner (IMerge mk R rc lc)
  | _, _ => False
  end.
Lemma merged_ok N h mk R nr n nm : merged mk R nr n nm -> nodeok N h nr -> nodeok N h n -> is_remove n = false -> nhigh n = Some (mk, R) -> nlow nr = Some mk ->
  rawok N h nm /\ nlow nm = nlow n /\ nhigh nm = nhigh nr /\ is_remove nm = false /\ nsize nm = nsize n + nsize nr /\ is_leaf nm = is_leaf n /\ nsize nr <= 32 /\ is_remove nr = true.
Proof.
  intros M [K1 K2] [L1 _] Hl Hhi Hlo. destruct nr as [[]|[]]; try (destruct M; fail); destruct n as [lc|lc]; simpl in M; try (destruct M; fail); subst nm.
  - destruct K1 as (-> & W & _), L1 as (_ & W2 & _). simpl in *. assert (Eb : lbody lc = lc) by (destruct lc; auto; discriminate). rewrite Eb in W2.
    repeat split; auto. unfold nsize in *. cbn [lcount] in *. destruct (lconsolidate_spec _ W) as (i1 & _ & _ & -> & _). destruct (lconsolidate_spec _ W2) as (i2 & _ & _ & -> & _). lia.
  - destruct K1 as (Hh & W & _ & _ & Rf & _), L1 as (_ & W2 & _ & _ & Rf2 & _). cbn [ibody] in W, Rf. assert (Eb : ibody lc = lc) by (destruct lc; auto; discriminate). rewrite Eb in W2, Rf2.
    simpl in *. repeat split; auto.
    + intros j [Hj|Hj]; auto.
    + unfold nsize in *. cbn [icount] in *. destruct (iconsolidate_spec _ _ 0 W) as (i1 & _ & _ & _ & -> & _). destruct (iconsolidate_spec _ _ 0 W2) as (i2 & _ & _ & _ & -> & _). lia.
Qed.

(** The merge delta is on the left page; the parent is told and the left page consolidated. *)
Lemma merge_step m lev H h k x R pre ga gb post ps nr nm mk : minv m lev H k -> atx m lev H h x None pre ga ((R, None) :: gb) post ->
  prt x = PNode ps -> is_remove (s_node (cur x)) = false -> node_of m R = Some nr -> nhigh (s_node (cur x)) = Some (mk, R) -> merged mk R nr (s_node (cur x)) nm ->
  tot (cas_mem m (s_id (cur x)) nm) (finish_merge (set_cur x {| s_id := s_id (cur x); s_ptr := nptr m; s_node := nm |}) mk R (nhigh nr))
    (fun m' o => exists x' lev', o = Some x' /\ minv m' lev' H k /\ root m' = root m /\ atx m' lev' H h x' None pre ga gb post /\ key x' = key x /\
      samepar (prt x) (prt x') /\ is_remove (s_node (cur x')) = false /\ nlow (s_node (cur x')) = nlow (s_node (cur x)) /\ others (node_of m) (node_of m') lev lev' H h /\
      (forall j, In j (ids (gb ++ post)) -> get m' j = get m j) /\ mpot m' lev' H < mpot m lev H /\ mayrem (node_of m') k (s_id (cur x')) (gb ++ post)).
Proof.
  intros I A Ep Hl ER Ehi HM. pose proof I as [B Iv].
  pose proof (a_cur _ _ _ _ _ _ _ _ _ _ A) as Hc. pose proof (a_par _ _ _ _ _ _ _ _ _ _ A) as Hpar. rewrite Ep in Hpar.
  pose proof (at_bound _ _ _ _ I _ _ _ Hc) as Bc. pose proof (at_bound _ _ _ _ I _ _ _ Hpar) as Bp.
  assert (HinR : In (R, None) (lev h)) by (rewrite (at_lev _ _ _ _ _ _ _ _ _ _ A); apply in_or_app; right; right; left; auto).
  pose proof (at_par_ne m lev H h k x _ pre ga _ post I A ps Ep) as Hpne.
  assert (Hne : s_id (cur x) <> s_id ps) by (apply Hpne; eapply ids_in; apply (at_in _ _ _ _ _ _ _ _ _ _ A)).
  assert (HneR : R <> s_id ps) by (apply Hpne; eapply ids_in; eauto).
  assert (HneR2 : R <> s_id (cur x)) by (apply (at_ne_id _ _ _ _ _ _ _ _ _ _ _ I A R); simpl; auto).
  pose proof (at_high _ _ _ _ _ _ _ _ _ _ _ I A) as Hh. simpl in Hh. destruct Hh as (k' & E1 & ElR). rewrite Ehi in E1. injection E1 as <-.
  destruct (par_grp m lev H h k x None pre ga _ post ps I A Ep) as (c & A0 & B0 & hi & Ec & HhH & F & G & _).
  pose proof (at_ok _ _ _ _ _ _ _ _ _ _ _ I A) as Hok.
  assert (HokR : nodeok (node_of m) h nr). { destruct (t_ok _ _ _ _ (at_tree _ _ _ _ I) h R ltac:(lia) (ids_in _ _ _ HinR)) as (n & E & Hn). rewrite ER in E. injection E as <-. auto. }
  assert (ElowR : nlow nr = Some mk) by (unfold nlo in ElR; rewrite ER in ElR; auto).
  destruct (merged_ok _ _ _ _ _ _ _ HM HokR Hok Hl Ehi ElowR) as (Hraw & Mlo & Mhi & Mrem & Msz & Mleaf & HszR & HremR).
  pose proof (p_good _ _ _ _ _ _ G) as Gd. destruct (good_order _ _ _ _ _ Gd) as [O1 O2].
  pose proof Gd as Gd2. rewrite app_cons_comm in Gd2. destruct (good_order _ _ _ _ _ Gd2) as [O3 O4].
  assert (Hltc : lolt (nlo (node_of m) (s_id (cur x))) (Some mk)) by (rewrite <- ElR; eapply O2; simpl; eauto).
  (* the parent *)
  set (g := ga ++ (s_id (cur x), None) :: (R, None) :: gb) in *.
  assert (Hseps : seps c mk R).
  { destruct (p_link _ _ _ _ _ _ G) as (c1 & o0 & g' & Eq1 & Eg & Hsep). rewrite (p_id _ _ _ _ _ _ G) in Eq1. injection Eq1 as <-. rewrite (p_body _ _ _ _ _ _ G) in Eg, Hsep.
    apply Hsep. split; auto. exists None. unfold g in Eg. destruct ga as [|[a oa] ga0]; simpl in Eg; injection Eg as _ _ <-; [simpl; auto|]. apply in_or_app. simpl; auto. }
  destruct (seps_range _ _ (p_wf _ _ _ _ _ _ G) _ _ Hseps) as (Hsa & Hbe & _).
  destruct (isearch_spec (nlo (node_of m)) mk c (p_wf _ _ _ _ _ _ G) Hsa Hbe) as ([[a b]|] & loc & Es & Hloc & Hloc1 & Hr); [|exfalso; eapply Hr; eauto].
  destruct Hr as [-> Hr]. rewrite <- (seps_fun (nlo (node_of m)) _ (p_wf _ _ _ _ _ _ G) _ _ _ Hseps Hr) in Es. clear b Hr.
  (* run *)
  pose proof (cas_upd1 m (s_id (cur x)) nm B Bc) as U1. set (m1 := cas_mem m (s_id (cur x)) nm) in *.
  assert (Hp1 : get m1 (s_id ps) = Some (s_ptr ps, s_node ps)) by (rewrite (u_other _ _ _ _ _ U1); auto).
  unfold finish_merge. cbn [prt set_cur]. rewrite Ep. eapply tot_load; [exact Hp1|]. cbn [fst]. rewrite N.eqb_refl.
  unfold parent_inner. rewrite Ec. simpl pbind. eapply tot_liftb; [exact Es|]. cbv beta iota. rewrite Nat.eqb_refl.
  apply tot_cas. { apply get_tab with (n := s_node ps). auto. }
  cbn [cur s_node s_id]. rewrite Mlo. set (cp := IDel (mk, R) (rawlow (nlow (s_node (cur x))), s_id (cur x)) (nhigh nr) loc c).
  pose proof (cas_upd1 m1 (s_id ps) (NInner cp) (u_bound _ _ _ _ _ U1) Bp) as U2. set (m2 := cas_mem m1 (s_id ps) (NInner cp)) in *.
  pose proof ER as GR. apply node_of_get in GR as (pR & GR).
  eapply tot_load; [rewrite (u_other _ _ _ _ _ U2), (u_other _ _ _ _ _ U1); [exact GR|auto|auto]|]. cbn [snd]. rewrite HremR.
  destruct (cons_ok _ _ _ Hraw) as (n' & En' & N1 & N2 & N3 & N4 & N5 & N6 & N7).
  assert (Hc2 : get m2 (s_id (cur x)) = Some (nptr m, nm)) by (rewrite (u_other _ _ _ _ _ U2); [apply U1|auto]).
  pose proof (cas_upd1 m2 (s_id (cur x)) n' (u_bound _ _ _ _ _ U2) Bc) as U3. set (m3 := cas_mem m2 (s_id (cur x)) n') in *.
  eapply (tot_bind _ _ _ (fun m' s => m' = m3 /\ s = {| s_id := s_id (cur x); s_ptr := nptr m2; s_node := n' |})).
  { eapply tot_consolidate; [apply get_tab with (n := nm); exact Hc2|exact En'|]. auto. }
  intros m' s [-> ->]. apply tot_ret.
  assert (E3i : node_of m3 (s_id (cur x)) = Some n') by apply (upd1_node _ _ _ _ _ U3).
  assert (E3p : node_of m3 (s_id ps) = Some (NInner cp)). { rewrite (upd1_other _ _ _ _ _ _ U3) by auto. apply (upd1_node _ _ _ _ _ U2). }
  assert (E3o : forall j, j <> s_id (cur x) -> j <> s_id ps -> node_of m3 j = node_of m j).
  { intros j J1 J2. rewrite (upd1_other _ _ _ _ _ _ U3), (upd1_other _ _ _ _ _ _ U2), (upd1_other _ _ _ _ _ _ U1); auto. }
  assert (Hok' : nodeok (node_of m) (S h) (NInner cp)).
  { split; [|discriminate]. destruct (p_ok _ _ _ _ _ _ G) as [(Hs0 & _) _]. split; auto. unfold cp. cbn [ibody].
    split; [|split; [|split; [|split]]].
    - cbn [iwf]. split; [apply (p_wf _ _ _ _ _ _ G)|]. split; [exact Hsa|]. split; [exact Hbe|]. split; [exact Hseps|]. split; [|split; [exact Hloc|exact Hloc1]].
      intros y Ey. unfold nlo in Ey. rewrite (cursn_node _ _ Hc) in Ey. rewrite Ey. reflexivity.
    - cbn [iexact]. split; [|split; [|apply (p_ex _ _ _ _ _ _ G)]].
      + assert (Eg3 : g = (ga ++ [(s_id (cur x), None)]) ++ [(R, None)] ++ gb) by (unfold g; rewrite <- app_assoc; reflexivity).
        pose proof G as [q1 q2 _ _ _ _ _ q8 q9 q10 q11 q12 _ _ _]. rewrite Eg3 in q8, q9, q10, q11.
        eapply (group_next (node_of m) c (s_id ps) _ [(R, None)] R gb mk nr (ilow c) hi q1 q2 q8 q9 q10 q11 q12); auto.
        * exists []. reflexivity.
        * intros j oj Hj Hlt. apply in_app_or in Hj as [Hj|[Hj|[]]].
          -- apply O3 in Hj. rewrite ElR in Hj. apply (lolt_irr (Some mk)). eapply lolt_trans; eauto.
          -- injection Hj as <- _. rewrite ElR in Hlt. apply (lolt_irr _ Hlt).
        * intros j oj Hj. rewrite <- ElR. eapply O4; eauto.
      + eapply (group_left (node_of m) c (s_id ps) ga (s_id (cur x)) None R None gb mk); [apply (p_id _ _ _ _ _ _ G)|apply (p_body _ _ _ _ _ _ G)|apply (p_link _ _ _ _ _ _ G)|exact Gd|exact ElR].
    - apply (p_free _ _ _ _ _ _ G).
    - intros j [->|[->|Hj]]; [congruence|rewrite (cursn_node _ _ Hc); discriminate|apply (p_refs _ _ _ _ _ _ G); auto].
    - intros j [->|Hj]; [unfold rem; rewrite ER; auto|apply (grp_dels _ _ _ _ _ _ G); auto]. }
  destruct (up_merge (node_of m) (node_of m3) (root m) lev H h (s_id ps) pre ga (s_id (cur x)) R gb post (s_node (cur x)) n' nr c (rawlow (nlow (s_node (cur x))), s_id (cur x)) (nhigh nr) loc mk k Iv) as (lev' & I' & Pl' & Hp & Ho); auto.
  - pose proof (a_place _ _ _ _ _ _ _ _ _ _ A) as Pl. rewrite Ep in Pl. exact Pl.
  - apply cursn_node; auto.
  - apply (p_id _ _ _ _ _ _ G).
  - congruence.
  - congruence.
  - intros Hh C1 C2 HG HL1 HL2. pose proof Hok as [Hok1 _]. pose proof HokR as [HokR1 _].
    destruct nr as [[]|[| | | |rid rc| |]]; try (destruct HM; fail); destruct (s_node (cur x)) as [lc|lc] eqn:Es1; simpl in HM; try (destruct HM; fail); subst nm; [destruct HokR1; lia|].
    destruct n' as [|c']; [destruct N7|]. destruct N7 as (k1 & k2 & k3).
    assert (Eb : ibody lc = lc) by (destruct lc; auto; discriminate).
    destruct Hok1 as (_ & w1 & _). destruct HokR1 as (_ & w2 & _).
    eapply (linked_merge (node_of m) (node_of m3) (s_id (cur x)) R lc (IRemove rid rc) mk c' C1 C2); eauto.
    + rewrite <- Es1. apply cursn_node; auto.
    + intros j Hj. unfold nlo. destruct (Nat.eq_dec j (s_id (cur x))) as [->|J1]; [unfold rem; rewrite E3i, (cursn_node _ _ Hc); split; [discriminate|split; rewrite Es1; simpl in *; congruence]|].
      destruct (Nat.eq_dec j (s_id ps)) as [->|J2]; [|unfold rem; rewrite E3o; auto].
      assert (Hlp : rem (node_of m) (s_id ps) = false) by (pose proof (a_place _ _ _ _ _ _ _ _ _ _ A) as Pl; rewrite Ep in Pl; apply Pl).
      rewrite E3p, (cursn_node _ _ Hpar), Ec. split; [discriminate|split; [reflexivity|congruence]].
    + rewrite Eb. exists R. simpl in Ehi. exact Ehi.
    + rewrite k2, Eb. exact k1.
    + rewrite k2, Eb. exact k3.
  - intros c1 ->. destruct nm as [|cm]; [destruct N7|]. destruct N7 as (k1 & k2 & _).
    destruct nr as [[]|[| | | |rid rc| |]]; try (destruct HM; fail); destruct (s_node (cur x)) as [lc|lc] eqn:Es1; simpl in HM; try discriminate; try (destruct HM; fail). injection HM as ->.
    exists lc. split; auto. rewrite k2, k1. assert (Eb : ibody lc = lc) by (destruct lc; auto; discriminate). rewrite Eb. reflexivity.
  - assert (Hroot : root m3 = root m) by (rewrite (u_root _ _ _ _ _ U3), (u_root _ _ _ _ _ U2), (u_root _ _ _ _ _ U1); auto).
    assert (Hright : forall j, In j (ids (gb ++ post)) -> get m3 j = get m j).
    { intros j Hj. assert (Hj2 : In j (ids (((R, None) :: gb) ++ post))) by (simpl; auto).
      assert (J1 : j <> s_id (cur x)) by apply (at_ne_id _ _ _ _ _ _ _ _ _ _ _ I A j Hj2).
      assert (J2 : j <> s_id ps). { apply Hpne. rewrite (at_lev _ _ _ _ _ _ _ _ _ _ A), ids_app. apply in_or_app. right. right. exact Hj2. }
      rewrite (u_other _ _ _ _ _ U3), (u_other _ _ _ _ _ U2), (u_other _ _ _ _ _ U1); auto. }
    eexists _, lev'. split; [reflexivity|]. split; [split; [apply U3|rewrite Hroot; exact I']|]. split; [exact Hroot|]. split; [|split; [reflexivity|]].
    { constructor.
      - apply U3.
      - unfold cursn. cbn. rewrite (u_other _ _ _ _ _ U3) by auto. apply U2.
      - exact Pl'. }
    split; [eapply samepar_upd; eauto|]. split; [exact N5|]. split; [cbn; congruence|]. split; [exact Ho|]. split; [exact Hright|]. split.
    + unfold mpot. assert (Hw : wt n' + 6 < wt (s_node (cur x)) + wt nr); [|lia].
      unfold wt. rewrite N5, Hl, HremR, N4, Msz. pose proof (f0_merge (nsize (s_node (cur x))) (nsize nr) HszR). pose proof (fi_merge (nsize (s_node (cur x))) (nsize nr) HszR).
      destruct nr as [[]|[]]; try (destruct HM; fail); destruct (s_node (cur x)) as [lc|lc]; simpl in HM; try (destruct HM; fail); subst nm; destruct n'; try destruct N7; lia.
    + destruct Iv as [_ Hrr]. specialize (Hrr h ltac:(lia)). rewrite (at_lev _ _ _ _ _ _ _ _ _ _ A) in Hrr.
      assert (HremR2 : rem (node_of m) R = true) by (unfold rem; rewrite ER; auto).
      pose proof (remrun_mayrem _ _ _ _ _ _ Hrr HremR2 ltac:(rewrite ElR; auto)) as Hmr.
      assert (Hsame : forall j oj, In (j, oj) (gb ++ post) -> node_of m3 j = node_of m j).
      { intros j oj Hj. unfold node_of. rewrite Hright; auto. eapply ids_in; eauto. }
      cbn [cur set_cur set_par s_id]. destruct Hmr as [[M1 M2]|(R2 & o2 & l & El & M)].
      * left. split; [unfold nlo in *; rewrite E3i, N2, Mlo; rewrite (cursn_node _ _ Hc) in M1; auto|].
        rewrite Forall_forall in M2 |- *. intros [j oj] Hj. specialize (M2 _ Hj). simpl in *. unfold nlo in *. rewrite (Hsame j oj Hj). auto.
      * right. exists R2, o2, l. split; auto. unfold rem in *. rewrite (Hsame R2 o2); auto. change (In (R2, o2) (gb ++ post)). replace (gb ++ post) with ((R2, o2) :: l) by (symmetry; exact El). simpl; auto.
Qed.
End SeqMerge.
