(** Completing an unfinished split or merge in single-threaded runs. *)
From Coq Require Import List Arith Lia Bool ZArith Sorted.
From Verif Require Import Base Leaf LeafSpec LeafProofs LeafProofs2 Inner InnerSpec InnerProofs InnerProofs2 Tree TreeSpec TreeInv TreeProg SeqTree SeqTree2 SeqPot SeqUp SeqProg SeqAdjust.
Import ListNotations.

Section SeqSmo.
Context {P : Params}.

Lemma seg_below N low l k j : seg N low l (Some (k, j)) -> rangeok N l -> forall i, In i l -> lolt (nlo N i) (Some k).
Proof.
  revert low. induction l as [|i l IH]; intros low Hs Hr a Ha; [destruct Hs|]. destruct Hs as (n & E & Hl & Hs). destruct l as [|b l].
  - destruct Ha as [<-|[]]. specialize (Hr i n (or_introl eq_refl) E). unfold nlo. rewrite E. rewrite Hs in Hr. destruct (nlow n); simpl in *; auto.
  - destruct Hs as (k1 & E2 & Hs). pose proof (IH _ Hs ltac:(intros ? ? ?; apply Hr; simpl; auto)) as IH'. destruct Ha as [<-|Ha]; [|auto].
    specialize (Hr i n (or_introl eq_refl) E). rewrite E2 in Hr. eapply lolt_trans; [|apply (IH' b); simpl; auto].
    rewrite (seg_hd _ _ _ _ _ Hs). unfold nlo. rewrite E. destruct (nlow n); simpl in *; auto.
Qed.

(** What the parent snapshot tells about the group of the current page. *)
Record pargrp (N : nmap) (h : nat) (c : ichain) (Q : nat) (g : list cell) (hi : option (K * nat)) : Prop := {
  p_id : N Q = Some (NInner c);
  p_body : ibody c = c;
  p_ok : nodeok N (S h) (NInner c);
  p_wf : iwf (nlo N) c;
  p_ex : iexact c;
  p_free : imerge_free c;
  p_refs : forall j, irefs c j -> N j <> None;
  p_link : linked N Q g;
  p_good : good N g;
  p_seg : seg N (ilow c) (ids g) hi;
  p_rng : rangeok N (ids g);
  p_hi : match hi, ihigh c with None, None => True | Some (a, _), Some (b, _) => a = b | _, _ => False end;
  p_lo : forall j, In j (ids g) -> nlo N j = ilow c \/ lolt (ilow c) (nlo N j);
  p_below : forall j x, In j (ids g) -> nlo N j = Some x -> below (ihigh c) x;
  p_lid : rem N (ilid c) = false
}.
Lemma grp_dels N h c Q g hi : pargrp N h c Q g hi -> forall j, idels c j -> rem N j = true.
Proof. intros G. destruct (p_ok _ _ _ _ _ _ G) as [(_ & _ & _ & _ & _ & Hd) _]. rewrite (p_body _ _ _ _ _ _ G) in Hd. exact Hd. Qed.
Lemma par_grp m lev H h k x o pre ga gb post ps : minv m lev H k -> atx m lev H h x o pre ga gb post -> prt x = PNode ps ->
  exists c A0 B0 hi, s_node ps = NInner c /\ h < H /\ focus (node_of m) lev h A0 (s_id ps) B0 pre (ga ++ (s_id (cur x), o) :: gb) post /\
    pargrp (node_of m) h c (s_id ps) (ga ++ (s_id (cur x), o) :: gb) hi /\
    match ids post with [] => True | j :: _ => match hi with Some (a, b) => b = j /\ nlo (node_of m) j = Some a | None => False end end.
Proof.
  intros I A Ep. destruct (at_par m lev H h k x o pre ga gb post I A ps Ep) as (Hh & HQ & En & c & A0 & B0 & Ec & Eb & F & Hok & Hlid).
  set (g := ga ++ (s_id (cur x), o) :: gb) in *. set (N := node_of m) in *.
  pose proof (at_tree _ _ _ _ I) as T. pose proof F as (_ & El & _ & HL & _). rewrite Ec in En.
  assert (Hg : good N g). { pose proof (tree_good _ _ _ _ h T ltac:(lia)) as G. rewrite El in G. apply good_app in G as [_ G]. apply good_app in G as [G _]. auto. }
  assert (Hr : rangeok N (ids g)). { intros j n Hj. apply (tree_ranges _ _ _ _ h T ltac:(lia)). rewrite El, !ids_app, !in_app_iff. auto. }
  destruct (focus_range _ _ _ _ _ _ _ _ _ _ _ c T Hh F En) as (hi & Hs & Hm). rewrite Eb in Hs.
  exists c, A0, B0, hi. split; auto. split; auto. split; auto. destruct Hok as [Hok1 Hok2]. pose proof Hok1 as (_ & W & X & Fr & Rf & _). rewrite Eb in W, X, Fr, Rf.
  destruct (seg_sorted _ _ _ _ Hs Hr) as [_ Hall]. rewrite Forall_forall in Hall.
  split.
  - constructor; auto. { split; auto. }
    intros j y Hj Ey. destruct hi as [[a b]|], (ihigh c) as [[a' b']|]; try destruct Hm; simpl; auto.
    pose proof (seg_below _ _ _ _ _ Hs Hr j Hj) as Hb. match type of Hb with lolt ?a _ => replace a with (Some y) in Hb by (symmetry; exact Ey) end. exact Hb.
  - destruct (ids post) as [|j pj] eqn:Epo; auto.
    assert (Hg0 : exists g0 z, ids g = g0 ++ [z]). { destruct (exists_last (l := ids g)) as (a & b & E); eauto. unfold g. rewrite ids_app. intros E%app_eq_nil. destruct E; discriminate. }
    destruct Hg0 as (g0 & z & Ez). pose proof (t_seg _ _ _ _ T h ltac:(lia)) as Hsl. pose proof (tree_ranges _ _ _ _ h T ltac:(lia)) as Hrl.
    rewrite El, !ids_app, Epo, Ez, <- app_assoc, app_assoc in Hsl, Hrl. change ([z] ++ j :: pj) with (z :: j :: pj) in *.
    destruct (seg_mid _ _ _ _ _ _ Hsl Hrl) as (nz & E1 & kz & E2 & E3).
    assert (Ehi : nhigh nz = hi). { rewrite Ez in Hs, Hr. destruct (seg_mid _ _ _ _ _ _ Hs Hr) as (nz' & E1' & E2'). congruence. }
    rewrite <- Ehi, E2. auto.
Qed.

Definition smopost (m : mem) lev H h k x pre ga gb post (m' : mem) (o : option ctx) : Prop :=
  match o with
  | None => fails m lev H k m'
  | Some x' => exists lev' ga' gb', goes m lev H h k x pre ga gb post m' x' lev' ga' gb' /\
      (mayrem (node_of m') k (s_id (cur x')) (gb' ++ post) \/ 32 < nsize (s_node (cur x')))
  end.
Lemma goes_refl m lev H h k x pre ga gb post : minv m lev H k -> atx m lev H h x None pre ga gb post -> is_remove (s_node (cur x)) = false ->
  goes m lev H h k x pre ga gb post m x lev ga gb.
Proof.
  intros I A Hl. constructor; auto.
  - apply samepar_refl. intros E. pose proof (a_par _ _ _ _ _ _ _ _ _ _ A) as Hp. rewrite E in Hp. auto.
  - apply lole_refl.
  - apply others_refl.
  - right. auto.
Qed.
Lemma smo_self m lev H h k x pre ga gb post : minv m lev H k -> atx m lev H h x None pre ga gb post -> is_remove (s_node (cur x)) = false ->
  mayrem (node_of m) k (s_id (cur x)) (gb ++ post) -> tot m (Ret (Some x)) (smopost m lev H h k x pre ga gb post).
Proof. intros I A Hl Hm. apply tot_ret. exists lev, ga, gb. split; auto. apply goes_refl; auto. Qed.

(** Where the separator of a split stands with the parent. *)
Lemma split_where m lev H h k x o pre ga gb post ps sk sib c A0 B0 hi : minv m lev H k -> atx m lev H h x o pre ga gb post -> prt x = PNode ps ->
  focus (node_of m) lev h A0 (s_id ps) B0 pre (ga ++ (s_id (cur x), o) :: gb) post ->
  pargrp (node_of m) h c (s_id ps) (ga ++ (s_id (cur x), o) :: gb) hi ->
  match ids post with [] => True | j :: _ => match hi with Some (a, b) => b = j /\ nlo (node_of m) j = Some a | None => False end end ->
  nhigh (s_node (cur x)) = Some (sk, sib) -> nlo (node_of m) sib = Some sk ->
  match o with
  | None => (exists hk hid, ihigh c = Some (hk, hid) /\ kge sk hk = true) \/
            (match ihigh c with Some (hk, _) => kge sk hk | None => false end = false /\ exists loc, isearch sk c = Ok (Some (sk, sib), loc))
  | Some s => s = sib /\ match ihigh c with Some (hk, _) => kge sk hk | None => false end = false /\
      (forall j, ~ seps c sk j) /\ sabove (ilow c) sk /\ below (ihigh c) sk /\
      exists loc, isearch sk c = Ok (None, loc) /\ loc_ok (ibase_for sk c) sk loc /\ (imerge_free c -> 1 <= loc)
  end.
Proof.
  intros I A Ep F G Hpost Ehi Elo. set (N := node_of m) in *. set (i := s_id (cur x)) in *.
  pose proof (at_high _ _ _ _ _ _ _ _ _ _ _ I A) as Hh. fold i in Hh.
  pose proof (at_node _ _ _ _ _ _ _ _ _ _ A) as En. fold i in En. fold N in En.
  pose proof (at_ok _ _ _ _ _ _ _ _ _ _ _ I A) as Hok. pose proof (node_range _ _ _ Hok) as Hrg. rewrite Ehi in Hrg.
  assert (Hig : In i (ids (ga ++ (i, o) :: gb))) by (eapply ids_in, in_elt).
  assert (Hisk : lolt (nlo N i) (Some sk)). { unfold nlo. rewrite En. destruct (nlow (s_node (cur x))); simpl in *; auto. }
  assert (Hsa : sabove (ilow c) sk).
  { assert (Hl : lolt (ilow c) (Some sk)). { destruct (p_lo _ _ _ _ _ _ G i Hig) as [E|E]; [rewrite <- E; auto|eapply lolt_trans; eauto]. } destruct (ilow c); simpl in *; auto. }
  destruct (p_link _ _ _ _ _ _ G) as (c1 & o0 & g' & E1 & Eg & Hsep). pose proof (p_id _ _ _ _ _ _ G) as E1'. rewrite E1 in E1'. injection E1' as ->. rewrite (p_body _ _ _ _ _ _ G) in Eg, Hsep.
  assert (Hgb : forall j oj, In (j, oj) gb -> In (j, oj) g').
  { intros j oj Hj. destruct ga as [|[a oa] ga0]; simpl in Eg; injection Eg as _ _ <-; auto. rewrite in_app_iff. simpl. auto. }
  assert (Hsub : forall j oj, In (j, oj) g' -> In (j, oj) (ga ++ (i, o) :: gb)) by (intros j oj Hj; rewrite Eg; simpl; auto).
  destruct o as [s|].
  - simpl in Hh. destruct Hh as (k' & Eh & _). rewrite Ehi in Eh. injection Eh as <- <-. split; auto.
    assert (Hsg : In sib (ids (ga ++ (i, Some sib) :: gb))) by (eapply ids_sib, in_elt).
    pose proof (p_below _ _ _ _ _ _ G sib sk Hsg Elo) as Hbe.
    assert (Hk : match ihigh c with Some (hk, _) => kge sk hk | None => false end = false).
    { destruct (ihigh c) as [[hk ?]|]; auto. simpl in Hbe. unfold kge. rewrite Hbe. auto. }
    assert (Hno : forall j, ~ seps c sk j).
    { intros j Hj. apply Hsep in Hj as ((oj & Hj) & Ej). assert (j = sib).
      { eapply (sorted_inj N (ids (ga ++ (i, Some sib) :: gb))); [apply (p_good _ _ _ _ _ _ G)|eapply ids_in, Hsub; eauto|auto|congruence]. }
      subst j. pose proof (tree_nodup _ _ _ _ h (at_tree _ _ _ _ I) (at_h _ _ _ _ _ _ _ _ _ _ A)) as Hnd.
      assert (E : (sib, oj) = (i, Some sib)).
      { eapply (cell_uniq (lev h) Hnd _ _ sib); simpl; auto.
        - destruct F as (_ & El & _). rewrite El. apply in_or_app. right. apply in_or_app. left. apply Hsub. auto.
        - apply (at_in _ _ _ _ _ _ _ _ _ _ A). }
      injection E as E _. rewrite E in Elo. rewrite Elo in Hisk. apply (lolt_irr _ Hisk). }
    repeat split; auto. destruct (isearch_spec (nlo N) sk c (p_wf _ _ _ _ _ _ G) Hsa Hbe) as ([[a b]|] & loc & Es & H1 & H2 & H3); [exfalso; eapply Hno; apply H3|]. eauto.
  - simpl in Hh. destruct (ihigh c) as [[hk hid]|] eqn:Eih.
    + destruct (kge sk hk) eqn:Ekge; [left; eauto|]. right. split; auto.
      assert (Hbe : below (ihigh c) sk). { rewrite Eih. simpl. unfold kge in Ekge. destruct (klt sk hk); auto; discriminate. }
      assert (Hse : seps c sk sib).
      { apply Hsep. split; auto. destruct gb as [|[j oj] gb'].
        - exfalso. simpl in Hh. destruct (ids post) as [|j pj]; [congruence|]. destruct Hh as (k' & Eh & _). rewrite Ehi in Eh. injection Eh as <- <-.
          pose proof (p_hi _ _ _ _ _ _ G) as Hm. destruct hi as [[a b]|]; [|auto]. destruct Hpost as [-> Ea]. rewrite Eih in Hm. subst a. rewrite Elo in Ea. injection Ea as <-. unfold kge in Ekge. rewrite klt_irrefl in Ekge. discriminate.
        - simpl in Hh. destruct Hh as (k' & Eh & _). rewrite Ehi in Eh. injection Eh as <- <-. exists oj. apply Hgb. simpl; auto. }
      destruct (isearch_spec (nlo N) sk c (p_wf _ _ _ _ _ _ G) Hsa Hbe) as ([[a b]|] & loc & Es & H1 & H2 & H3); [|exfalso; eapply H3; eauto].
      destruct H3 as [-> H3]. rewrite (seps_fun (nlo N) _ (p_wf _ _ _ _ _ _ G) _ _ _ Hse H3). eauto.
    + right. split; auto. assert (Hbe : below (ihigh c) sk) by (rewrite Eih; simpl; auto).
      assert (Hse : seps c sk sib).
      { apply Hsep. split; auto. destruct gb as [|[j oj] gb'].
        - exfalso. simpl in Hh. destruct (ids post) as [|j pj]; [congruence|].
          pose proof (p_hi _ _ _ _ _ _ G) as Hm. rewrite Eih in Hm. destruct hi as [[a b]|]; auto.
        - simpl in Hh. destruct Hh as (k' & Eh & _). rewrite Ehi in Eh. injection Eh as <- <-. exists oj. apply Hgb. simpl; auto. }
      destruct (isearch_spec (nlo N) sk c (p_wf _ _ _ _ _ _ G) Hsa Hbe) as ([[a b]|] & loc & Es & H1 & H2 & H3); [|exfalso; eapply H3; eauto].
      destruct H3 as [-> H3]. rewrite (seps_fun (nlo N) _ (p_wf _ _ _ _ _ _ G) _ _ _ Hse H3). eauto.
Qed.

Lemma samepar_upd ps n p (c c' : ichain) : s_node ps = NInner c -> n = NInner c' -> ilow c' = ilow c -> ihigh c' = ihigh c ->
  samepar (PNode ps) (PNode {| s_id := s_id ps; s_ptr := p; s_node := n |}).
Proof. intros E -> H1 H2. simpl. rewrite E. simpl. auto. Qed.

Lemma new_root_mem m r : (forall j, get (root_mem m r) j = get m j) /\ (mbound m -> mbound (root_mem m r)) /\ forall j, node_of (root_mem m r) j = node_of m j.
Proof. split; [reflexivity|split]; [|reflexivity]. intros [B1 B2]. constructor; auto. Qed.

(** The split case of FinishPartialSMO. *)
Lemma finish_split_spec m lev H h k x o pre ga gb post sk sib nx : minv m lev H k -> atx m lev H h x o pre ga gb post ->
  is_remove (s_node (cur x)) = false -> nhigh (s_node (cur x)) = Some (sk, sib) ->
  (o = None -> mayrem (node_of m) k (s_id (cur x)) (gb ++ post)) ->
  (o = Some sib -> 32 < nsize (s_node (cur x)) /\ exists ns, node_of m sib = Some ns /\ nhigh ns = nx /\ is_remove ns = false) ->
  tot m (finish_split x sk sib nx) (smopost m lev H h k x pre ga gb post).
Proof.
  intros I A Hl Ehi Hmay Hpend. pose proof I as [B Iv].
  pose proof (at_high _ _ _ _ _ _ _ _ _ _ _ I A) as Hh.
  pose proof (a_cur _ _ _ _ _ _ _ _ _ _ A) as Hc. pose proof (a_par _ _ _ _ _ _ _ _ _ _ A) as Hpar.
  assert (Elo : nlo (node_of m) sib = Some sk).
  { destruct (cids (s_id (cur x), o) ++ ids (gb ++ post)) as [|a [|b l]]; try congruence. destruct Hh as (k' & E1 & E2). rewrite Ehi in E1. injection E1 as <- <-. auto. }
  unfold finish_split. destruct (prt x) as [| |ps] eqn:Ep; [destruct Hpar| |].
  - (* the root *)
    pose proof (a_place _ _ _ _ _ _ _ _ _ _ A) as Pl. rewrite Ep in Pl. destruct Pl as (-> & El & -> & -> & o1 & Eg).
    destruct ga as [|a ga]; [|destruct ga; discriminate Eg]. simpl in Eg, El. injection Eg as Ei <- ->. simpl in Hh.
    destruct o as [s|]; simpl in Hh; [|congruence]. destruct Hh as (k' & E1 & _). rewrite Ehi in E1. injection E1 as <- <-.
    rewrite Ei. apply tot_new. apply tot_casroot; [reflexivity|]. apply tot_ret.
    set (nd := NInner (IBase 0 None (root m) [(kdef, root m); (sk, sib)] None)). set (m1 := new_mem m nd). pose proof (new_upd1 m nd B) as U. fold m1 in U.
    destruct (new_root_mem m1 (nid m)) as (G1 & G2 & G3).
    destruct (up_newroot (node_of m) (node_of (root_mem m1 (nid m))) (root m) lev H sib sib (nid m) sk k Iv) as (lev' & I' & Hp).
    + rewrite El, Ei. auto.
    + auto.
    + apply fresh_node; auto.
    + rewrite G3. apply (upd1_node _ _ _ _ _ U).
    + intros j Hj. rewrite G3. apply (upd1_other _ _ _ _ _ _ U Hj).
    + auto.
    + exists lev', (S H). split; [|exact Hp]. split; [apply G2, U|exact I'].
  - (* below a parent *)
    destruct (par_grp m lev H h k x o pre ga gb post ps I A Ep) as (c & A0 & B0 & hi & Ec & HhH & F & G & Hpost).
    pose proof (split_where m lev H h k x o pre ga gb post ps sk sib c A0 B0 hi I A Ep F G Hpost Ehi Elo) as Hw.
    unfold parent_inner. rewrite Ec. simpl pbind. destruct o as [s|].
    + destruct Hw as (-> & Hk & Hno & Hsa & Hbe & loc & Es & Hloc & Hloc1). rewrite Hk.
      destruct (Hpend eq_refl) as (Hsz & ns & Ens & Enx & Hlns).
      eapply tot_liftb; [exact Es|]. cbv beta iota.
      apply tot_cas. { apply cursn_tab; auto. }
      set (cp := IIns (sk, sib) nx loc c).
      pose proof (at_bound _ _ _ _ I _ _ _ Hc) as Bc. pose proof (at_bound _ _ _ _ I _ _ _ Hpar) as Bp.
      assert (Hne : s_id (cur x) <> s_id ps) by (apply (at_par_ne m lev H h k x _ pre ga gb post I A ps Ep); eapply ids_in; apply (at_in _ _ _ _ _ _ _ _ _ _ A)).
      pose proof (cas_upd1 m (s_id ps) (NInner cp) B Bp) as U1. set (m1 := cas_mem m (s_id ps) (NInner cp)) in *.
      pose proof (at_ok _ _ _ _ _ _ _ _ _ _ _ I A) as Hok.
      destruct (cons_ok _ _ _ (nodeok_raw _ _ _ Hok Hl)) as (n' & En' & H1 & H2 & H3 & H4 & H5 & H6 & H7).
      assert (Hc1 : cursn m1 (cur x)) by (unfold cursn; rewrite (u_other _ _ _ _ _ U1); auto).
      pose proof (cas_upd1 m1 (s_id (cur x)) n' (u_bound _ _ _ _ _ U1) Bc) as U2. set (m2 := cas_mem m1 (s_id (cur x)) n') in *.
      eapply (tot_bind _ _ _ (fun m' s => m' = m2 /\ s = {| s_id := s_id (cur x); s_ptr := nptr m1; s_node := n' |})).
      { eapply tot_consolidate; [apply cursn_tab; auto|exact En'|]. auto. }
      intros m' s [-> ->]. apply tot_ret.
      assert (Hok' : nodeok (node_of m) (S h) (NInner cp)).
      { split; [|discriminate]. destruct (p_ok _ _ _ _ _ _ G) as [(Hs0 & _) _]. split; auto. unfold cp. cbn [ibody].
        split; [|split; [|split; [|split; [|exact (grp_dels _ _ _ _ _ _ G)]]]].
        - cbn [iwf]. split; [apply (p_wf _ _ _ _ _ _ G)|]. repeat split; auto; apply Hloc.
        - cbn [iexact]. split; [|apply (p_ex _ _ _ _ _ _ G)]. rewrite <- Enx.
          pose proof (at_good _ _ _ _ _ _ _ _ _ _ _ I A) as GG. destruct (good_order _ _ _ _ _ (p_good _ _ _ _ _ _ G)) as [O1 O2].
          assert (Hisib : lolt (nlo (node_of m) (s_id (cur x))) (Some sk)).
          { pose proof (node_range _ _ _ Hok) as Hrg. rewrite Ehi in Hrg. unfold nlo. rewrite (cursn_node _ _ Hc). destruct (nlow (s_node (cur x))); simpl in *; auto. }
          eapply (group_next (node_of m) c (s_id ps) ga [(s_id (cur x), Some sib)] sib gb sk ns (ilow c) hi).
          + apply (p_id _ _ _ _ _ _ G).
          + apply (p_body _ _ _ _ _ _ G).
          + apply (p_link _ _ _ _ _ _ G).
          + apply (p_good _ _ _ _ _ _ G).
          + apply (p_seg _ _ _ _ _ _ G).
          + apply (p_rng _ _ _ _ _ _ G).
          + apply (p_hi _ _ _ _ _ _ G).
          + exists [s_id (cur x)]. reflexivity.
          + exact Ens.
          + intros j oj Hj Hlt. apply in_app_or in Hj as [Hj|[Hj|[]]].
            * apply O1 in Hj. apply (lolt_irr (Some sk)). eapply lolt_trans; [exact Hlt|]. eapply lolt_trans; eauto.
            * injection Hj as <- _. apply (lolt_irr (Some sk)). eapply lolt_trans; eauto.
          + intros j oj Hj. rewrite <- Elo. destruct (p_good _ _ _ _ _ _ G) as [_ Hs]. rewrite ids_app in Hs.
            change (ids ((s_id (cur x), Some sib) :: gb)) with ([s_id (cur x); sib] ++ ids gb) in Hs. apply ss_app in Hs as (_ & Hs & _). apply ss_app in Hs as (_ & _ & Hs). apply Hs; [simpl; auto|eapply ids_in; eauto].
        - apply (p_free _ _ _ _ _ _ G).
        - intros j [->|Hj]; [congruence|apply (p_refs _ _ _ _ _ _ G); auto]. }
      destruct (up_post (node_of m) (node_of m2) (root m) lev H h (s_id ps) pre ga (s_id (cur x)) sib gb post (s_node (cur x)) n' ns c nx loc sk k Iv) as (lev' & I' & Pl' & Hp & Ho); auto.
      * pose proof (a_place _ _ _ _ _ _ _ _ _ _ A) as Pl. rewrite Ep in Pl. exact Pl.
      * apply cursn_node; auto.
      * apply (upd1_node _ _ _ _ _ U2).
      * apply (p_id _ _ _ _ _ _ G).
      * rewrite (upd1_other _ _ _ _ _ _ U2) by auto. apply (upd1_node _ _ _ _ _ U1).
      * intros j J1 J2. rewrite (upd1_other _ _ _ _ _ _ U2), (upd1_other _ _ _ _ _ _ U1); auto.
      * apply kids_same; auto.
      * unfold nlo in Elo. rewrite Ens in Elo. exact Elo.
      * rewrite (wt_same _ n' Hl H5 H4 H7) in Hp.
        assert (Hroot : root m2 = root m) by (rewrite (u_root _ _ _ _ _ U2), (u_root _ _ _ _ _ U1); auto).
        exists lev', ga, ((sib, None) :: gb). split; [constructor|right; simpl; rewrite H4; auto].
        -- split; [apply U2|]. rewrite Hroot. exact I'.
        -- auto.
        -- constructor; simpl.
           ++ apply U2.
           ++ unfold cursn. simpl. rewrite (u_other _ _ _ _ _ U2) by auto. apply U1.
           ++ exact Pl'.
        -- reflexivity.
        -- rewrite Ep. eapply samepar_upd; eauto.
        -- exact H5.
        -- simpl. rewrite H2. apply lole_refl.
        -- exact Ho.
        -- intros j Hj. rewrite (u_other _ _ _ _ _ U2), (u_other _ _ _ _ _ U1); auto.
           ++ apply (at_par_ne m lev H h k x _ pre ga gb post I A ps Ep). rewrite (at_lev _ _ _ _ _ _ _ _ _ _ A), ids_app. change (ids ((s_id (cur x), Some sib) :: gb ++ post)) with (cids (s_id (cur x), Some sib) ++ ids (gb ++ post)). rewrite !in_app_iff. auto.
           ++ apply (at_ne_id _ _ _ _ _ _ _ _ _ _ _ I A j Hj).
        -- left. split; [|eauto]. unfold mpot. destruct h; simpl bq in Hp; lia.
    + destruct Hw as [(hk & hid & Eih & Hk)|(Hk & loc & Es)].
      * rewrite Eih, Hk. apply smo_self; auto.
      * rewrite Hk. eapply tot_liftb; [exact Es|]. cbv beta iota. rewrite Nat.eqb_refl. apply smo_self; auto.
Qed.
End SeqSmo.
