(** Size adjustment in single-threaded runs: it changes nothing, or aborts the
    traversal having used up potential. *)
From Coq Require Import List Arith Lia Bool ZArith Sorted.
From Verif Require Import Base Leaf LeafSpec LeafProofs LeafProofs2 Inner InnerSpec InnerProofs InnerProofs2 Tree TreeSpec TreeInv TreeProg SeqTree SeqTree2 SeqPot SeqUp SeqProg.
Import ListNotations.

Section SeqAdjust.
Context {P : Params}.

Lemma fresh_node m : mbound m -> node_of m (nid m) = None.
Proof.
  intros B. destruct (node_of m (nid m)) as [n|] eqn:E; auto. apply node_of_get in E as (p & E). apply get_tab in E as [E _].
  destruct (b_tab _ B _ _ E). lia.
Qed.

Lemma post_remove_tot m lev H h k x pre ga gb post ps c rm : minv m lev H k -> atx m lev H h x None pre ga gb post -> prt x = PNode ps -> s_node ps = NInner c ->
  tot m (post_remove ps (cur x) rm) (fun m' o => o = None /\ mbound m' /\ root m' = root m /\ node_of m' (s_id (cur x)) = Some rm /\ forall j, j <> s_id (cur x) -> node_of m' j = node_of m j).
Proof.
  intros I A Ep Ec. pose proof I as [B Iv].
  pose proof (a_cur _ _ _ _ _ _ _ _ _ _ A) as Hc. pose proof (a_par _ _ _ _ _ _ _ _ _ _ A) as Hp. rewrite Ep in Hp.
  assert (Hne : s_id (cur x) <> s_id ps). { eapply (at_par_ne m lev H h k x None pre ga gb post I A ps Ep). eapply ids_in. apply (at_in _ _ _ _ _ _ _ _ _ _ A). }
  pose proof (at_bound _ _ _ _ I _ _ _ Hc) as Bc. pose proof (at_bound _ _ _ _ I _ _ _ Hp) as Bp.
  unfold post_remove, parent_inner. rewrite Ec. simpl pbind.
  apply tot_cas. { apply cursn_tab; auto. }
  pose proof (cas_upd1 m (s_id ps) (NInner (IAbort (s_ptr ps) c)) B Bp) as U1. set (m1 := cas_mem m (s_id ps) (NInner (IAbort (s_ptr ps) c))) in *.
  apply tot_cas. { apply get_tab with (n := s_node (cur x)). rewrite (u_other _ _ _ _ _ U1); auto. }
  pose proof (cas_upd1 m1 (s_id (cur x)) rm (u_bound _ _ _ _ _ U1) Bc) as U2. set (m2 := cas_mem m1 (s_id (cur x)) rm) in *.
  apply tot_ptr. { apply get_tab with (n := NInner (IAbort (s_ptr ps) c)). rewrite (u_other _ _ _ _ _ U2); auto. apply U1. }
  assert (Hh : heap m2 (s_ptr ps) = Some (s_node ps)). { apply (u_heap _ _ _ _ _ U2), (u_heap _ _ _ _ _ U1). apply get_tab in Hp. tauto. }
  pose proof (ptr_upd1 m2 (s_id ps) (s_ptr ps) (s_node ps) (u_bound _ _ _ _ _ U2) Bp Hh) as U3. set (m3 := ptr_mem m2 (s_id ps) (s_ptr ps)) in *.
  apply tot_ret. split; auto. split; [apply U3|]. split; [rewrite (u_root _ _ _ _ _ U3), (u_root _ _ _ _ _ U2), (u_root _ _ _ _ _ U1); auto|].
  split. { rewrite (upd1_other _ _ _ _ _ _ U3) by auto. apply (upd1_node _ _ _ _ _ U2). }
  intros j Hj. destruct (Nat.eq_dec j (s_id ps)) as [->|Hj'].
  - rewrite (upd1_node _ _ _ _ _ U3). symmetry. apply cursn_node; auto.
  - rewrite (upd1_other _ _ _ _ _ _ U3), (upd1_other _ _ _ _ _ _ U2), (upd1_other _ _ _ _ _ _ U1); auto.
Qed.

Lemma remove_fails m lev H h k x pre ga gb post ps c rm : minv m lev H k -> atx m lev H h x None pre ga gb post -> prt x = PNode ps -> s_node ps = NInner c ->
  ilid c <> s_id (cur x) -> is_remove (s_node (cur x)) = false -> is_remove rm = true -> nlow rm = nlow (s_node (cur x)) -> nhigh rm = nhigh (s_node (cur x)) ->
  nsize rm = nsize (s_node (cur x)) -> nodeok (node_of m) h rm -> samekids (s_node (cur x)) rm -> is_leaf rm = is_leaf (s_node (cur x)) ->
  mayrem (node_of m) k (s_id (cur x)) (gb ++ post) ->
  tot m (post_remove ps (cur x) rm) (fun m' o => match o with None => fails m lev H k m' | Some x' => m' = m /\ x' = x end).
Proof.
  intros I A Ep Ec Hlid Hl Hl' Hlo Hhi Hsz Hok Hk Hlf Hmay.
  eapply tot_mono. { eapply post_remove_tot; eauto. }
  intros m' o (-> & B' & Hr & Hi & Ho).
  destruct (at_par m lev H h k x None pre ga gb post I A ps Ep) as (Hh & HQ & En & c0 & A0 & B0 & Ec0 & Eb & F & _).
  rewrite Ec in Ec0. injection Ec0 as <-.
  pose proof (a_place _ _ _ _ _ _ _ _ _ _ A) as Pl. destruct I as [B Iv].
  destruct (up_page (node_of m) (node_of m') (root m) lev H h _ pre ga (s_id (cur x)) gb post (s_node (cur x)) rm k Iv Pl (at_node _ _ _ _ _ _ _ _ _ _ A) Hi Ho Hlo Hhi Hok Hk Hl) as (I' & _ & Hp & _).
  { right. split; auto. split; auto. exists (s_id ps), c. rewrite Ep. simpl. split; auto. rewrite Eb, En, Ec. auto. }
  exists lev, H. split; [split; auto; rewrite Hr; auto|]. unfold mpot.
  assert (wt rm < wt (s_node (cur x))); [|lia]. unfold wt. rewrite Hl, Hl', Hsz. destruct rm, (s_node (cur x)); try discriminate; lia.
Qed.

Lemma split_fails m lev H h k x pre ga gb post sk ns n' : minv m lev H k -> atx m lev H h x None pre ga gb post -> is_remove (s_node (cur x)) = false ->
  is_remove n' = false ->
  let m' := cas_mem (new_mem m ns) (s_id (cur x)) n' in let N' := node_of m' in
  (mono (node_of m) N' -> N' (s_id (cur x)) = Some n' -> N' (nid m) = Some ns ->
   (forall j, j <> s_id (cur x) -> j <> nid m -> N' j = node_of m j) -> nodeok N' h n' /\ nodeok N' h ns /\ pending N' (s_id (cur x)) (nid m) /\
   (0 < h -> forall C, good (node_of m) C -> linked (node_of m) (s_id (cur x)) C -> exists C1 C2, C = C1 ++ C2 /\ linked N' (s_id (cur x)) C1 /\ linked N' (nid m) C2) /\
   (forall c, n' = NInner c -> rem N' (ilid (ibody c)) = false) /\ (forall c, ns = NInner c -> rem N' (ilid (ibody c)) = false)) ->
  nlow n' = nlow (s_node (cur x)) -> nhigh n' = Some (sk, nid m) -> nlow ns = Some sk -> nhigh ns = nhigh (s_node (cur x)) ->
  wt n' + bq h + wt ns < wt (s_node (cur x)) -> fails m lev H k m'.
Proof.
  intros I A Hl Hl' m' N' Hall Hlo Hhi Hlo2 Hhi2 Hwt. pose proof I as [B Iv].
  pose proof (a_cur _ _ _ _ _ _ _ _ _ _ A) as Hc. pose proof (at_bound _ _ _ _ I _ _ _ Hc) as Bc.
  pose proof (new_upd1 m ns B) as U1. pose proof (cas_upd1 (new_mem m ns) (s_id (cur x)) n' (u_bound _ _ _ _ _ U1) ltac:(simpl; lia)) as U2. fold m' in U2.
  assert (E1 : N' (s_id (cur x)) = Some n') by apply (upd1_node _ _ _ _ _ U2).
  assert (E2 : N' (nid m) = Some ns). { unfold N'. rewrite (upd1_other _ _ _ _ _ _ U2) by lia. apply (upd1_node _ _ _ _ _ U1). }
  assert (E3 : forall j, j <> s_id (cur x) -> j <> nid m -> N' j = node_of m j). { intros j H1 H2. unfold N'. rewrite (upd1_other _ _ _ _ _ _ U2), (upd1_other _ _ _ _ _ _ U1); auto. }
  assert (En : node_of m (nid m) = None) by (apply fresh_node; auto).
  assert (Ei : node_of m (s_id (cur x)) = Some (s_node (cur x))) by (apply cursn_node; auto).
  assert (Hmono : mono (node_of m) N').
  { intros j Hj. destruct (Nat.eq_dec j (s_id (cur x))) as [->|H1].
    - rewrite E1. split; [discriminate|]. unfold nlo, rem. rewrite E1, Ei. split; congruence.
    - destruct (Nat.eq_dec j (nid m)) as [->|H2]; [congruence|]. unfold nlo, rem. rewrite E3; auto. }
  destruct (Hall Hmono E1 E2 E3) as (K1 & K2 & K3 & K4 & K5 & K6).
  destruct (up_split (node_of m) N' (root m) lev H h _ pre ga (s_id (cur x)) gb post (s_node (cur x)) n' (nid m) ns sk k Iv (a_place _ _ _ _ _ _ _ _ _ _ A) Ei E1 En E2 E3) as (lev' & I' & Hp); auto.
  exists lev', H. split.
  - split; [apply U2|]. rewrite (u_root _ _ _ _ _ U2), (u_root _ _ _ _ _ U1). exact I'.
  - unfold mpot. fold N'. lia.
Qed.

(** AdjustNodeSize. *)
Lemma adjust_spec m lev H h k x pre ga gb post : minv m lev H k -> atx m lev H h x None pre ga gb post -> is_remove (s_node (cur x)) = false ->
  (mayrem (node_of m) k (s_id (cur x)) (gb ++ post) \/ 32 < nsize (s_node (cur x))) ->
  tot m (adjust x) (fun m' o => match o with None => fails m lev H k m' | Some x' => m' = m /\ x' = x end).
Proof.
  intros I A Hl Hmay. pose proof (at_ok _ _ _ _ _ _ _ _ _ _ _ I A) as Hok.
  assert (Hself : tot m (Ret (Some x)) (fun m' o => match o with None => fails m lev H k m' | Some x' => m' = m /\ x' = x end)) by (apply tot_ret; auto).
  unfold adjust. destruct (s_node (cur x)) as [[low items high| | | | |]|[d low lid items high| | | | | |]] eqn:En; auto.
  - destruct Hok as [(Hh & Hw & Hm) _]. simpl in Hw, Hm. unfold LEAF_SIZE_UPPER.
    destruct (128 <=? length items) eqn:Eu.
    + apply Nat.leb_le in Eu. destruct Hw as [Hb Hnd]. destruct (split_full low items high ltac:(apply Hb) ltac:(lia)) as (sib & Es & _).
      eapply tot_liftb; [exact Es|]. destruct sib as [s|]; [|exact Hself].
      destruct (lsplit_spec low items high s (conj Hb Hnd) Es) as (sk & si & -> & Hws & Hwn & _ & _ & L1 & L2). unfold LEAF_SIZE_LOWER in *.
      apply tot_new. apply tot_cas. { apply get_tab with (n := s_node (cur x)). destruct I as [B Iv]. rewrite (u_other _ _ _ _ _ (new_upd1 m _ B)); [apply A|]. pose proof (at_bound m lev H k (conj B Iv) _ _ _ (a_cur _ _ _ _ _ _ _ _ _ _ A)). lia. }
      apply tot_ret. apply (split_fails m lev H h k x pre ga gb post sk _ _ I A); rewrite ?En; auto.
      * intros Hmono E1 E2 E3. split; [|split; [|split; [|split; [|split]]]].
        -- split; [|discriminate]. split; auto. simpl lbody. split; [apply Hwn|exact Logic.I].
        -- split; [|discriminate]. exact (conj Hh (conj Hws Logic.I)).
        -- unfold pending. rewrite E1, E2. unfold nsize. cbn [lcount]. repeat split; auto; lia.
        -- lia.
        -- discriminate.
        -- discriminate.
      * rewrite Hh. unfold wt, nsize. cbn [is_remove lcount bq].
        rewrite Nat2Z.id. replace (Z.to_nat (Z.of_nat (length items) - Z.of_nat (length si))) with (length items - length si) by lia. rewrite Nat2Z.id.
        pose proof (f0_split (length items - length si) (length si) ltac:(lia) ltac:(lia)) as Hf. replace (length items - length si + length si) with (length items) in Hf by lia. lia.
    + unfold LEAF_SIZE_LOWER. destruct (length items <=? 32) eqn:El; auto. apply Nat.leb_le in El.
      pose proof (a_par _ _ _ _ _ _ _ _ _ _ A) as Hpar. destruct (prt x) as [| |ps] eqn:Ep; [destruct Hpar| |].
      { exfalso. pose proof (a_place _ _ _ _ _ _ _ _ _ _ A) as Pl. rewrite Ep in Pl. destruct Pl as (Eh & _). pose proof (t_H _ _ _ _ (at_tree _ _ _ _ I)). lia. }
      destruct (at_par m lev H h k x None pre ga gb post I A ps Ep) as (_ & _ & _ & c & _ & _ & Ec & _).
      unfold parent_inner. rewrite Ec. simpl pbind. destruct (ilid c =? s_id (cur x)) eqn:Elid; auto. apply Nat.eqb_neq in Elid.
      assert (Hmay' : mayrem (node_of m) k (s_id (cur x)) (gb ++ post)). { destruct Hmay as [Hy|Hy]; auto. unfold nsize in Hy. cbn [lcount] in Hy. lia. }
      apply (remove_fails m lev H h k x pre ga gb post ps c); rewrite ?En; auto.
      * split; [|intros _; unfold nsize; cbn [lcount]; lia]. split; auto.
  - destruct Hok as [(Hh & Hw & He & Hm & Hr & Hd) _]. cbn [ibody] in Hw, He, Hm, Hr, Hd. unfold INNER_SIZE_UPPER.
    destruct (128 <=? length items) eqn:Eu.
    + apply Nat.leb_le in Eu. destruct (isplit_spec (nlo (node_of m)) d low lid items high Hw ltac:(lia)) as (sk & lid' & rest' & Es & Hlen & Hin & Hsa & Hbe & Hrest & Hiff & Hws & Hwn).
      eapply tot_liftb; [exact Es|]. cbv beta iota.
      assert (Hrf : irefs (IBase d low lid items high) lid'). { simpl. right. apply in_map_iff. exists (sk, lid'). split; auto. destruct items; [destruct Hin|right; auto]. }
      destruct (node_of m lid') as [nf|] eqn:Enf; [|exfalso; apply (Hr lid' Hrf); auto]. pose proof Enf as Enf0. apply node_of_get in Enf0 as (pf & Gf).
      eapply tot_load; [exact Gf|]. cbn [snd]. destruct (is_remove nf) eqn:Erf; auto.
      assert (Hrn : forall j, irefs (IBase 0 (Some sk) lid' ((sk, lid') :: rest') high) j -> node_of m j <> None).
      { intros j [->|[<-|Hj]]; [apply Hr, Hrf|apply Hr, Hrf|]. apply in_map_iff in Hj as ([a b] & <- & Hj). apply Hiff in Hj as [Hj _]. apply Hr. simpl. right. apply in_map_iff. exists (a, b). split; auto. destruct items; [destruct Hj|right; auto]. }
      apply tot_new. apply tot_cas. { apply get_tab with (n := s_node (cur x)). destruct I as [B Iv]. rewrite (u_other _ _ _ _ _ (new_upd1 m _ B)); [apply A|]. pose proof (at_bound m lev H k (conj B Iv) _ _ _ (a_cur _ _ _ _ _ _ _ _ _ _ A)). lia. }
      apply tot_ret. apply (split_fails m lev H h k x pre ga gb post sk _ _ I A); rewrite ?En; auto.
      * intros Hmono E1 E2 E3.
        assert (Hfirst : forall j, node_of m j <> None -> rem (node_of m) j = false -> rem (node_of (cas_mem (new_mem m (NInner (IBase 0 (Some sk) lid' ((sk, lid') :: rest') high))) (s_id (cur x)) (NInner (ISplit sk (nid m) (length ((sk, lid') :: rest')) (IBase d low lid items high))))) j = false).
        { intros j Hj Hrj. unfold rem in Hrj |- *. destruct (Nat.eq_dec j (s_id (cur x))) as [->|H1]; [rewrite E1; auto|]. destruct (Nat.eq_dec j (nid m)) as [->|H2]; [rewrite E2; auto|]. rewrite E3; auto. }
        split; [|split; [|split; [|split; [|split]]]].
        -- apply (nodeok_mono (node_of m)); auto. split; [|discriminate]. exact (conj Hh (conj (Hwn _) (conj He (conj Hm (conj Hr Hd))))).
        -- apply (nodeok_mono (node_of m)); auto. split; [|discriminate]. exact (conj Hh (conj Hws (conj Logic.I (conj Logic.I (conj Hrn Hd))))).
        -- unfold pending. rewrite E1, E2. split; auto. split; auto. pose proof (Nat.div2_odd (length items)). destruct (Nat.odd (length items)); simpl Nat.b2n in *; unfold nsize; cbn [icount length]; repeat split; auto; lia.
        -- intros _ C HC HL. eapply (linked_split (node_of m)); eauto. rewrite <- En. apply cursn_node, A.
        -- intros c0 E0. injection E0 as <-. cbn [ibody ilid]. apply Hfirst; [apply Hr; simpl; auto|].
           apply (t_first _ _ _ _ (at_tree _ _ _ _ I) h (s_id (cur x)) (IBase d low lid items high)); [|eapply ids_in, (at_in _ _ _ _ _ _ _ _ _ _ A)|rewrite <- En; apply cursn_node, A].
           split; auto. apply (at_h _ _ _ _ _ _ _ _ _ _ A).
        -- intros c0 E0. injection E0 as <-. cbn [ibody ilid]. apply Hfirst; [apply Hr; auto|]. unfold rem. rewrite Enf. auto.
      * unfold wt, nsize. cbn [is_remove icount length]. destruct h as [|h']; [lia|]. cbn [bq].
        rewrite Hlen, !Nat2Z.id. replace (Z.to_nat (Z.of_nat (length items) - Z.of_nat (length items - Nat.div2 (length items)))) with (Nat.div2 (length items)).
        2:{ pose proof (Nat.div2_odd (length items)). destruct (Nat.odd (length items)); simpl Nat.b2n in *; lia. }
        pose proof (fi_split (length items) (Nat.div2 (length items)) (length items - Nat.div2 (length items))) as Hf.
        pose proof (Nat.div2_odd (length items)). destruct (Nat.odd (length items)); simpl Nat.b2n in *; lia.
    + unfold INNER_SIZE_LOWER. destruct (length items <=? 32) eqn:El; auto. apply Nat.leb_le in El.
      pose proof (a_par _ _ _ _ _ _ _ _ _ _ A) as Hpar. destruct (prt x) as [| |ps] eqn:Ep; [destruct Hpar|exact Hself|].
      destruct (at_par m lev H h k x None pre ga gb post I A ps Ep) as (_ & _ & _ & c & _ & _ & Ec & _).
      unfold parent_inner. rewrite Ec. simpl pbind. destruct (ilid c =? s_id (cur x)) eqn:Elid; auto. apply Nat.eqb_neq in Elid.
      assert (Hmay' : mayrem (node_of m) k (s_id (cur x)) (gb ++ post)). { destruct Hmay as [Hy|Hy]; auto. unfold nsize in Hy. cbn [icount] in Hy. lia. }
      apply (remove_fails m lev H h k x pre ga gb post ps c); rewrite ?En; auto.
      * split; [|intros _; unfold nsize; cbn [icount]; lia]. split; auto.
      * split; [reflexivity|]. intros; reflexivity.
Qed.
End SeqAdjust.
