(** Help-along, consolidation and size adjustment together (the common tail of
    LoadNodeID and JumpToNodeID) in single-threaded runs. *)
From Coq Require Import NArith List Arith Lia Bool ZArith Sorted.
From Verif Require Import Base Leaf LeafSpec LeafProofs LeafProofs2 Inner InnerSpec InnerProofs InnerProofs2 Tree TreeSpec TreeInv TreeProg SeqTree SeqTree2 SeqPot SeqUp SeqProg SeqAdjust SeqSmo SeqMerge.
Import ListNotations.

Section SeqSettle.
Context {P : Params}.

Definition setpost (m : mem) lev H h k x pre ga gb post (m' : mem) (o : option ctx) : Prop :=
  match o with
  | None => fails m lev H k m'
  | Some x' => exists lev' ga' gb', goes m lev H h k x pre ga gb post m' x' lev' ga' gb'
  end.
Definition at_snap (x : ctx) (i : nat) (p : N) (n : node) : ctx := set_cur x {| s_id := i; s_ptr := p; s_node := n |}.
(** JumpToNodeID works on the cells left of index [q]. *)
Definition jumpok (jump : nat -> ctx -> prog (option ctx)) (q : nat) : Prop :=
  forall m lev H h k x i oi pre ga gb post pi ni,
    minv m lev H k -> atx m lev H h (at_snap x i pi ni) oi pre ga gb post -> is_leaf ni = is_leaf (s_node (cur x)) -> s_id (cur x) <> i ->
    (is_remove ni = false -> oi = None -> mayrem (node_of m) k i (gb ++ post)) -> length (pre ++ ga) < q ->
    tot m (jump i x) (setpost m lev H h k (at_snap x i pi ni) pre ga gb post).

Lemma snoc_cons (l : list cell) (a b : cell) (r : list cell) : (l ++ [a]) ++ b :: r = l ++ a :: b :: r.
Proof. rewrite <- app_assoc. reflexivity. Qed.
Lemma len_snoc (a b : list cell) (c : cell) : length (a ++ b) < length (a ++ (b ++ [c])).
Proof. rewrite !app_length. simpl. lia. Qed.
Lemma removed_facts m lev H h k x o pre ga gb post : minv m lev H k -> atx m lev H h x o pre ga gb post -> is_remove (s_node (cur x)) = true ->
  exists ps ga0 L oL k0, o = None /\ prt x = PNode ps /\ ga = ga0 ++ [(L, oL)] /\ nlow (s_node (cur x)) = Some k0.
Proof.
  intros I A Hr. pose proof (at_tree _ _ _ _ I) as T. pose proof (at_node _ _ _ _ _ _ _ _ _ _ A) as En.
  destruct o as [s|]. { destruct (at_split _ _ _ _ _ _ _ _ _ _ _ I A s eq_refl). congruence. }
  pose proof (a_par _ _ _ _ _ _ _ _ _ _ A) as Hpar. destruct (prt x) as [| |ps] eqn:Ep; [destruct Hpar| |].
  - exfalso. pose proof (a_place _ _ _ _ _ _ _ _ _ _ A) as Pl. rewrite Ep in Pl. destruct Pl as (-> & El & -> & -> & o1 & Eg).
    destruct ga as [|a ga]; [|destruct ga; discriminate Eg]. simpl in Eg. injection Eg as Ei _ _. pose proof (t_live _ _ _ _ T) as Hlv. unfold rem in Hlv. rewrite <- Ei, En in Hlv. congruence.
  - destruct (par_grp m lev H h k x None pre ga gb post ps I A Ep) as (c & A0 & B0 & hi & Ec & HhH & F & G & _).
    exists ps. destruct (p_link _ _ _ _ _ _ G) as (c1 & o0 & g' & E1 & Eg & _). rewrite (p_id _ _ _ _ _ _ G) in E1. injection E1 as <-. rewrite (p_body _ _ _ _ _ _ G) in Eg.
    destruct ga as [|a0 ga0] using rev_ind.
    + exfalso. simpl in Eg. injection Eg as E _ _. pose proof (p_lid _ _ _ _ _ _ G) as Hlid. rewrite <- E in Hlid. unfold rem in Hlid. rewrite En in Hlid. congruence.
    + clear IHga0. destruct a0 as [L oL]. exists ga0, L, oL. destruct (good_order _ _ _ _ _ (p_good _ _ _ _ _ _ G)) as [O1 _].
      assert (Hlt : lolt (nlo (node_of m) L) (nlo (node_of m) (s_id (cur x)))) by (eapply O1; apply in_or_app; right; left; eauto).
      unfold nlo in Hlt at 2. rewrite En in Hlt. destruct (nlow (s_node (cur x))) as [k0|]; [exists k0; auto|destruct Hlt].
Qed.

Lemma strip_same N h s : nodeok N h (s_node s) -> strip_snap s = s.
Proof.
  intros [Hok _]. unfold strip_snap. destruct s as [i p n]. simpl in *. destruct n as [c|c]; auto. destruct Hok as (_ & W & _). destruct c; simpl in *; auto; destruct W.
Qed.

(** JumpToLeftSibling on a removed page. *)
Lemma jump_left_spec jump m lev H h k x pre ga gb post : minv m lev H k -> atx m lev H h x None pre ga gb post -> is_remove (s_node (cur x)) = true ->
  jumpok jump (length (pre ++ ga)) ->
  tot m (jump_left jump x) (fun m' o => match o with
    | None => fails m lev H k m'
    | Some x' => exists lev' ga' mk, minv m' lev' H k /\ root m' = root m /\ atx m' lev' H h x' None pre ga' ((s_id (cur x), None) :: gb) post /\ key x' = key x /\
        samepar (prt x) (prt x') /\ is_remove (s_node (cur x')) = false /\ lole (nlow (s_node (cur x'))) (nlow (s_node (cur x))) /\ others (node_of m) (node_of m') lev lev' H h /\
        (forall j, In j (ids ((s_id (cur x), None) :: gb ++ post)) -> get m' j = get m j) /\ mpot m' lev' H <= mpot m lev H /\
        nhigh (s_node (cur x')) = Some (mk, s_id (cur x)) /\ nlow (s_node (cur x)) = Some mk
    end).
Proof.
  intros I A Hr HJ. destruct (removed_facts _ _ _ _ _ _ _ _ _ _ _ I A Hr) as (ps & ga0 & L & oL & k0 & _ & Ep & -> & Ek0).
  pose proof (a_par _ _ _ _ _ _ _ _ _ _ A) as Hpar. rewrite Ep in Hpar. pose proof (a_cur _ _ _ _ _ _ _ _ _ _ A) as Hc.
  destruct (par_grp m lev H h k x None pre _ gb post ps I A Ep) as (c & A0 & B0 & hi & Ec & HhH & F & G & _).
  pose proof (at_node _ _ _ _ _ _ _ _ _ _ A) as En.
  assert (Elo : nlo (node_of m) (s_id (cur x)) = Some k0) by (unfold nlo; rewrite En; auto).
  assert (Hlid : ilid c <> s_id (cur x)). { intros E. pose proof (p_lid _ _ _ _ _ _ G) as Hx. rewrite E in Hx. unfold rem in Hx. rewrite En in Hx. congruence. }
  pose proof (snoc_cons ga0 (L, oL) (s_id (cur x), None) gb) as Hgeq.
  pose proof (a_place _ _ _ _ _ _ _ _ _ _ A) as Pl. rewrite Ep in Pl. apply (fun q => eq_ind _ (fun l => place (node_of m) (root m) lev H h (Some (s_id ps)) pre l post) q _ Hgeq) in Pl.
  assert (Hseps : seps c k0 (s_id (cur x))).
  { destruct (p_link _ _ _ _ _ _ G) as (c1 & o0 & g' & Eq1 & Eg & Hsep). rewrite (p_id _ _ _ _ _ _ G) in Eq1. injection Eq1 as <-. rewrite (p_body _ _ _ _ _ _ G) in Eg, Hsep.
    apply Hsep. split; auto. exists None. apply (eq_trans (eq_sym Hgeq)) in Eg. destruct ga0 as [|[a oa] ga1]; simpl in Eg; injection Eg as _ _ <-; [simpl; auto|]. apply in_or_app. simpl; auto. }
  destruct (ileft_spec _ _ _ _ (p_wf _ _ _ _ _ _ G) (p_free _ _ _ _ _ _ G) Hseps) as (L' & El & HL').
  assert (EL : L' = L).
  { pose proof (p_link _ _ _ _ _ _ G) as q1. pose proof (p_good _ _ _ _ _ _ G) as q2. apply (fun q => eq_ind _ (fun l => linked (node_of m) (s_id ps) l) q _ Hgeq) in q1. apply (fun q => eq_ind _ (fun l => good (node_of m) l) q _ Hgeq) in q2.
    pose proof (group_left (node_of m) c (s_id ps) ga0 L oL (s_id (cur x)) None gb k0 (p_id _ _ _ _ _ _ G) (p_body _ _ _ _ _ _ G) q1 q2 Elo) as HL.
    eapply (left_of_fun (nlo (node_of m))); [apply (p_wf _ _ _ _ _ _ G)|exact HL'|exact HL]. }
  subst L'.
  assert (HinL : In (L, oL) (lev h)). { rewrite (at_lev _ _ _ _ _ _ _ _ _ _ A). rewrite <- !app_assoc. apply in_or_app. right. apply in_or_app. right. left. auto. }
  destruct (t_ok _ _ _ _ (at_tree _ _ _ _ I) h L ltac:(lia) (ids_in _ _ _ HinL)) as (nL & EnL & HokL). pose proof EnL as GL. apply node_of_get in GL as (pL & GL).
  assert (HneL : L <> s_id (cur x)). { eapply (at_ne _ _ _ _ _ _ _ _ _ _ _ I A). left. apply in_or_app. right. apply in_or_app. right. left. reflexivity. }
  assert (Hleaf : is_leaf nL = is_leaf (s_node (cur x))).
  { rewrite (at_leaf _ _ _ _ _ _ _ _ _ _ _ I A). destruct HokL as [HL2 _]. destruct nL; simpl in *; destruct HL2 as [HL2 _]; [rewrite HL2; auto|]. symmetry. apply Nat.eqb_neq. lia. }
  unfold jump_left. rewrite Ep. unfold parent_inner. rewrite Ec. simpl pbind. apply Nat.eqb_neq in Hlid. rewrite Hlid.
  eapply tot_load; [exact Hpar|]. cbn [fst]. rewrite N.eqb_refl. rewrite Ek0. cbn [rawlow].
  unfold find_left, parent_inner. rewrite Ec. simpl pbind. rewrite El. simpl pbind. cbn [fst snd].
  assert (AL : atx m lev H h (at_snap (set_par x ps) L pL nL) oL pre ga0 ((s_id (cur x), None) :: gb) post).
  { constructor; [exact GL|exact Hpar|exact Pl]. }
  eapply tot_bind.
  { apply (HJ m lev H h k (set_par x ps) L oL pre ga0 ((s_id (cur x), None) :: gb) post pL nL I AL Hleaf).
    - cbn. auto.
    - intros _ _. right. exists (s_id (cur x)), None, (gb ++ post). split; auto. unfold rem. rewrite En. auto.
    - exact (len_snoc pre ga0 (L, oL)). }
  intros m' o Ho. destruct o as [x'|]; [|apply tot_ret; exact Ho].
  destruct Ho as (lev' & ga' & gb' & [g1 g2 g3 g4 g5 g6 g7 g8 g9 g10]).
  pose proof (at_high _ _ _ _ _ _ _ _ _ _ _ g1 g3) as Hh'.
  assert (HLlt : lolt (nlow nL) (Some k0)).
  { destruct (good_order _ _ _ _ _ (p_good _ _ _ _ _ _ G)) as [O1 _]. rewrite <- Elo. pose proof (O1 L oL ltac:(apply in_or_app; right; left; auto)) as O. unfold nlo in O at 1. rewrite EnL in O. exact O. }
  assert (Hcase : (gb' = (s_id (cur x), None) :: gb /\ mpot m' lev' H <= mpot m lev H) \/ (mpot m' lev' H < mpot m lev H /\ exists s, gb' = (s, None) :: (s_id (cur x), None) :: gb)).
  { destruct g10 as [[Hp [E|(s & E)]]|(Hp & _ & E & _)]; [left; split; auto; lia|right; split; eauto|left; split; auto; lia]. }
  destruct Hcase as [[-> Hp]|[Hp (s & ->)]].
  - simpl in Hh'. destruct Hh' as (mk & Eh & Elo').
    assert (Emk : mk = k0). { unfold nlo in Elo', Elo. unfold node_of in Elo', Elo. rewrite g9 in Elo' by (simpl; auto). rewrite Elo in Elo'. congruence. }
    subst mk. rewrite Eh. rewrite Nat.eqb_refl. apply tot_ret. exists lev', ga', k0. split; auto. split; auto. split; auto. split; [exact g4|]. split; [exact g5|]. split; auto.
    split; [|split; auto]. eapply lole_trans; [exact g7|]. cbn. destruct (nlow nL); simpl in *; auto. order.
  - simpl in Hh'. destruct Hh' as (mk & Eh & Elo'). rewrite Eh.
    assert (Hs : s <> s_id (cur x)). { pose proof (at_nodup _ _ _ _ _ _ _ _ _ _ _ g1 g3) as Hnd. simpl in Hnd. apply nodup_r in Hnd. inversion Hnd as [|? ? _ Hnd']; subst. inversion Hnd' as [|? ? Hn _]; subst. intros ->. apply Hn. simpl; auto. }
    apply Nat.eqb_neq in Hs. rewrite Hs. apply tot_ret. exists lev', H. auto.
Qed.

(** FinishPartialSMO. *)
Lemma finish_smo_spec jump m lev H h k x o pre ga gb post : minv m lev H k -> atx m lev H h x o pre ga gb post ->
  (is_remove (s_node (cur x)) = false -> o = None -> mayrem (node_of m) k (s_id (cur x)) (gb ++ post)) -> jumpok jump (length (pre ++ ga)) ->
  tot m (finish_smo jump x) (smopost m lev H h k x pre ga gb post).
Proof.
  intros I A Hmay HJ. pose proof (at_ok _ _ _ _ _ _ _ _ _ _ _ I A) as Hok.
  assert (Hself : is_remove (s_node (cur x)) = false -> o = None -> tot m (Ret (Some x)) (smopost m lev H h k x pre ga gb post)).
  { intros Hl Eo. rewrite Eo in A. apply smo_self; auto. }
  unfold finish_smo. rewrite (strip_same _ _ _ Hok). replace (set_cur x (cur x)) with x by (destruct x; reflexivity).
  assert (Hrem : is_remove (s_node (cur x)) = true ->
    forall f : option ctx -> prog (option ctx), f None = Ret None ->
    (forall m1 x1 mk nm, cursn m1 (cur x1) -> nhigh (s_node (cur x1)) = Some (mk, s_id (cur x)) -> is_leaf (s_node (cur x1)) = is_leaf (s_node (cur x)) -> merged mk (s_id (cur x)) (s_node (cur x)) (s_node (cur x1)) nm -> forall Q,
       tot (cas_mem m1 (s_id (cur x1)) nm) (finish_merge (set_cur x1 {| s_id := s_id (cur x1); s_ptr := nptr m1; s_node := nm |}) mk (s_id (cur x)) (nhigh (s_node (cur x)))) Q -> tot m1 (f (Some x1)) Q) ->
    tot m (pbind (jump_left jump x) f) (smopost m lev H h k x pre ga gb post)).
  { intros Hr f Hn Hf. destruct (removed_facts _ _ _ _ _ _ _ _ _ _ _ I A Hr) as (ps & ga0 & L & oL & k0 & Eo & Ep & Ega & Ek0). rewrite Eo in A.
    eapply tot_bind; [apply (jump_left_spec jump m lev H h k x pre ga gb post I A Hr HJ)|]. intros m1 [x1|] HQ; [|rewrite Hn; apply tot_ret; exact HQ].
    destruct HQ as (lev1 & ga1 & mk & I1 & R1 & A1 & K1 & S1 & L1 & Lo1 & O1 & Rt1 & P1 & Hi1 & Hlo1).
    pose proof (at_node _ _ _ _ _ _ _ _ _ _ A) as En.
    assert (EnR : node_of m1 (s_id (cur x)) = Some (s_node (cur x))). { unfold node_of. rewrite Rt1 by (simpl; auto). exact En. }
    rewrite Ep in S1. destruct (prt x1) as [| |ps1] eqn:Ep1; try (destruct S1; fail).
    assert (Hlf : is_leaf (s_node (cur x1)) = is_leaf (s_node (cur x))). { rewrite (at_leaf _ _ _ _ _ _ _ _ _ _ _ I1 A1), (at_leaf _ _ _ _ _ _ _ _ _ _ _ I A). auto. }
    assert (Hex : exists nm, merged mk (s_id (cur x)) (s_node (cur x)) (s_node (cur x1)) nm).
    { destruct (s_node (cur x)) as [[]|[]]; try discriminate; destruct (s_node (cur x1)); try discriminate; simpl; eauto. }
    destruct Hex as (nm & HM). apply (Hf m1 x1 mk nm (a_cur _ _ _ _ _ _ _ _ _ _ A1) Hi1 Hlf HM).
    eapply tot_mono; [apply (merge_step m1 lev1 H h k x1 (s_id (cur x)) pre ga1 gb post ps1 (s_node (cur x)) nm mk I1 A1 Ep1 L1 EnR Hi1 HM)|].
    intros m2 o2 (x2 & lev2 & -> & I2 & R2 & A2 & K2 & S2 & L2 & Lo2 & O2 & Rt2 & P2 & M2).
    exists lev2, ga1, gb. split; [|left; exact M2]. constructor; auto; try congruence.
    - rewrite Ep. eapply samepar_trans; [|exact S2]. rewrite Ep1. exact S1.
    - eapply others_trans; eauto.
    - intros j Hj. rewrite Rt2 by auto. apply Rt1. simpl; auto.
    - left. split; [lia|auto]. }
  destruct (s_node (cur x)) as [c|c] eqn:En.
  - destruct Hok as [(Hh & W & Nm) _]. destruct c as [low items high|a b d c|a b d c|sk sib n c|rid rc|mk i r c]; cbn [lbody] in W, Nm.
    1-3: apply Hself; auto; destruct o as [s|]; auto; destruct (at_split _ _ _ _ _ _ _ _ _ _ _ I A s eq_refl) as [_ Hp]; unfold pending in Hp; rewrite (at_node _ _ _ _ _ _ _ _ _ _ A), En in Hp; destruct Hp.
    + apply (finish_split_spec m lev H h k x o pre ga gb post sk sib (lhigh c)); rewrite ?En; auto.
      intros Eo. destruct (at_split _ _ _ _ _ _ _ _ _ _ _ I A sib Eo) as [_ Hp]. unfold pending in Hp. rewrite (at_node _ _ _ _ _ _ _ _ _ _ A), En in Hp.
      destruct (node_of m sib) as [[[]|]|] eqn:Es; try (destruct Hp; fail). destruct Hp as (_ & _ & _ & Hs & Hhi). split; auto. eexists. split; [reflexivity|]. split; auto.
    + apply Hrem; auto. intros m1 x1 mk nm Hc1 Hi1 Hlf HM Q HT. destruct (s_node (cur x1)) as [lc|lc]; [|discriminate]. simpl in Hi1, HM. rewrite Hi1. subst nm.
      apply tot_cas; [apply cursn_tab; auto|]. exact HT.
    + destruct Nm.
  - destruct Hok as [(Hh & W & X & Nm & Rf) _]. destruct c as [d low lid items high|[s i] nx loc c|[s i] [ps0 pi] nx loc c|sk sib n c|rid rc|mk i r c|p c]; cbn [ibody] in W, Nm.
    1-3: apply Hself; auto; destruct o as [s0|]; auto; destruct (at_split _ _ _ _ _ _ _ _ _ _ _ I A s0 eq_refl) as [_ Hp]; unfold pending in Hp; rewrite (at_node _ _ _ _ _ _ _ _ _ _ A), En in Hp; destruct Hp.
    + apply (finish_split_spec m lev H h k x o pre ga gb post sk sib (ihigh c)); rewrite ?En; auto.
      intros Eo. destruct (at_split _ _ _ _ _ _ _ _ _ _ _ I A sib Eo) as [_ Hp]. unfold pending in Hp. rewrite (at_node _ _ _ _ _ _ _ _ _ _ A), En in Hp.
      destruct (node_of m sib) as [[|[]]|] eqn:Es; try (destruct Hp; fail). destruct Hp as (_ & _ & _ & Hs & Hhi). split; auto. eexists. split; [reflexivity|]. split; auto.
    + apply Hrem; auto. intros m1 x1 mk nm Hc1 Hi1 Hlf HM Q HT. destruct (s_node (cur x1)) as [lc|lc]; [discriminate|]. simpl in Hi1, HM. rewrite Hi1. subst nm.
      apply tot_cas; [apply cursn_tab; auto|]. exact HT.
    + destruct Nm.
    + destruct W.
Qed.

Lemma fails_le m lev H k m1 lev1 H1 m2 : mpot m1 lev1 H1 <= mpot m lev H -> fails m1 lev1 H1 k m2 -> fails m lev H k m2.
Proof. intros Hle (lev' & H' & I' & Hp). exists lev', H'. split; auto. lia. Qed.

(** The common tail of LoadNodeID and JumpToNodeID. *)
Lemma settle_spec jump m lev H h k x o pre ga gb post : minv m lev H k -> atx m lev H h x o pre ga gb post ->
  (is_remove (s_node (cur x)) = false -> o = None -> mayrem (node_of m) k (s_id (cur x)) (gb ++ post)) -> jumpok jump (length (pre ++ ga)) ->
  tot m (settle jump x) (setpost m lev H h k x pre ga gb post).
Proof.
  intros I A Hmay HJ. unfold settle. eapply tot_bind; [eapply finish_smo_spec; eauto|].
  intros m1 [x1|] HQ; [|apply tot_ret; exact HQ]. destruct HQ as (lev1 & ga1 & gb1 & [g1 g2 g3 g4 g5 g6 g7 g8 g9 g10] & Hm).
  eapply tot_bind; [apply try_cons_spec; eauto|].
  intros m2 x2 (I2 & A2 & P2 & O2 & G2 & Id2 & K2 & Pr2 & Lo2 & L2 & Sz2 & R2).
  assert (Hright : forall j, In j (ids (gb1 ++ post)) -> get m2 j = get m1 j). { intros j Hj. apply G2. apply (at_ne_id _ _ _ _ _ _ _ _ _ _ _ g1 g3 j Hj). }
  assert (Hgb : forall j, In j (ids (gb ++ post)) -> In j (ids (gb1 ++ post))).
  { intros j Hj. destruct g10 as [[_ [->|(s & ->)]]|(_ & _ & -> & _)]; auto. simpl. auto. }
  eapply tot_mono; [apply (adjust_spec m2 lev1 H h k x2 pre ga1 gb1 post I2 A2 L2)|].
  - destruct Hm as [Hm|Hm]; [left|right; rewrite Sz2; auto]. rewrite Id2.
    assert (Hsame : forall j oj, In (j, oj) (gb1 ++ post) -> node_of m2 j = node_of m1 j). { intros j oj Hj. unfold node_of. rewrite Hright; auto. eapply ids_in; eauto. }
    destruct Hm as [[M1 M2]|(R & oR & l & El & M)].
    + left. split.
      * unfold nlo in *. rewrite (at_node _ _ _ _ _ _ _ _ _ _ g3) in M1. rewrite <- Id2. rewrite (at_node _ _ _ _ _ _ _ _ _ _ A2), Lo2. auto.
      * rewrite Forall_forall in M2 |- *. intros [j oj] Hj. specialize (M2 _ Hj). simpl in *. unfold nlo in *. rewrite (Hsame j oj Hj). auto.
    + right. exists R, oR, l. split; auto. unfold rem in *. rewrite (Hsame R oR); auto. change (In (R, oR) (gb1 ++ post)). replace (gb1 ++ post) with ((R, oR) :: l) by (symmetry; exact El). simpl; auto.
  - intros m3 [x3|] HQ; [destruct HQ as [-> ->]|].
    + exists lev1, ga1, gb1. constructor; auto; try congruence.
      * eapply others_trans; eauto.
      * intros j Hj. rewrite Hright by auto. auto.
    + eapply fails_le; [|exact HQ]. destruct g10 as [[? _]|[? _]]; lia.
Qed.

Lemma jump_to_ok f : jumpok (jump_to f) f.
Proof.
  induction f as [|f IH]; intros m lev H h k x i oi pre ga gb post pi ni I A Hlf Hne Hmay Hq; [lia|].
  simpl jump_to. eapply tot_load; [apply (a_cur _ _ _ _ _ _ _ _ _ _ A)|]. cbn [s_id s_ptr s_node cur at_snap set_cur snd fst].
  rewrite Hlf, Bool.eqb_reflx. apply Nat.eqb_neq in Hne. rewrite Hne. simpl.
  apply (settle_spec (jump_to f) m lev H h k (at_snap x i pi ni) oi pre ga gb post I A Hmay).
  intros m1 lev1 H1 h1 k1 x1 i1 oi1 pre1 ga1 gb1 post1 pi1 ni1 a1 a2 a3 a4 a5 a6. eapply IH; eauto. lia.
Qed.
Lemma jumpok_le jump q q' : q <= q' -> jumpok jump q' -> jumpok jump q.
Proof. intros Hle HJ m lev H h k x i oi pre ga gb post pi ni a1 a2 a3 a4 a5 a6. eapply HJ; eauto. lia. Qed.
End SeqSettle.
