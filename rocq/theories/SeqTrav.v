(** Single-threaded traversals: they end, at the page responsible for the key,
    with no removed page left anywhere. *)
From Coq Require Import List Arith Lia Bool ZArith Sorted.
From Verif Require Import Base Leaf LeafSpec LeafProofs LeafProofs2 Inner InnerSpec InnerProofs InnerProofs2 Tree TreeSpec TreeInv TreeProg SeqTree SeqTree2 SeqPot SeqUp SeqProg SeqAdjust SeqSmo SeqMerge SeqSettle.
Import ListNotations.

Section SeqTrav.
Context {P : Params}.

Definition beyond (N : nmap) (k : K) (l : list cell) : Prop := Forall (fun c => lolt (Some k) (nlo N (fst c))) l.
(** At most one page between the current one and those beyond the key. *)
Definition near (N : nmap) (k : K) (gb post : list cell) : Prop :=
  beyond N k (gb ++ post) \/ exists s gb0, gb = (s, None) :: gb0 /\ beyond N k (gb0 ++ post).

Lemma beyond_same m m' k l : (forall j, In j (ids l) -> get m' j = get m j) -> beyond (node_of m) k l -> beyond (node_of m') k l.
Proof.
  intros Hs Hb. unfold beyond in *. rewrite Forall_forall in Hb |- *. intros [j o] Hj. specialize (Hb _ Hj). simpl in *. unfold nlo, node_of in *. rewrite Hs; auto. eapply ids_in; eauto.
Qed.

(** Going on at level [h] from [x] to [x']. *)
Record trip (m : mem) (lev : nat -> list cell) (H h : nat) (k : K) (x : ctx) (pre post : list cell) (m' : mem) (x' : ctx) (lev' : nat -> list cell) (ga' gb' : list cell) : Prop := {
  tr_inv : minv m' lev' H k;
  tr_root : root m' = root m;
  tr_at : atx m' lev' H h x' None pre ga' gb' post;
  tr_key : key x' = key x;
  tr_par : samepar (prt x) (prt x');
  tr_live : is_remove (s_node (cur x')) = false;
  tr_lo : above (nlow (s_node (cur x'))) k;
  tr_others : others (node_of m) (node_of m') lev lev' H h;
  tr_pot : mpot m' lev' H <= mpot m lev H
}.

Lemma goes_near m lev H h k x pre ga gb post m' x' lev' ga' gb' : goes m lev H h k x pre ga gb post m' x' lev' ga' gb' ->
  above (nlow (s_node (cur x))) k -> beyond (node_of m) k (gb ++ post) ->
  trip m lev H h k x pre post m' x' lev' ga' gb' /\ near (node_of m') k gb' post /\ (mpot m' lev' H < mpot m lev H \/ beyond (node_of m') k (gb' ++ post)).
Proof.
  intros [g1 g2 g3 g4 g5 g6 g7 g8 g9 g10] Hab Hb. pose proof (beyond_same m m' k _ g9 Hb) as Hb'.
  split; [constructor; auto|].
  - eapply lole_above; eauto.
  - destruct g10 as [[? _]|[? _]]; lia.
  - destruct g10 as [[Hp [->|(s & ->)]]|(Hp & _ & -> & _)].
    + split; [left; auto|auto].
    + split; [right; eauto|left; auto].
    + split; [left; auto|auto].
Qed.

Lemma at_len m lev H h k x o pre ga gb post : minv m lev H k -> atx m lev H h x o pre ga gb post -> length (pre ++ ga) < mpot m lev H.
Proof.
  intros I A. pose proof (tree_length _ _ _ _ h (at_tree _ _ _ _ I) (at_h _ _ _ _ _ _ _ _ _ _ A)) as Hl. rewrite (at_lev _ _ _ _ _ _ _ _ _ _ A), app_length in Hl. simpl in Hl. unfold mpot. lia.
Qed.

(** NavigateSiblingChain. *)
Lemma chain_spec f : forall m lev H h k x pre ga gb post, minv m lev H k -> atx m lev H h x None pre ga gb post -> key x = k -> is_remove (s_node (cur x)) = false ->
  above (nlow (s_node (cur x))) k -> near (node_of m) k gb post -> (mpot m lev H < f \/ (0 < f /\ beyond (node_of m) k (gb ++ post))) ->
  tot m (sibling_chain kge f x) (fun m' o => match o with
    | None => fails m lev H k m'
    | Some x' => exists lev' ga' gb', trip m lev H h k x pre post m' x' lev' ga' gb' /\ beyond (node_of m') k (gb' ++ post) /\ below (nhigh (s_node (cur x'))) k
    end).
Proof.
  induction f as [|f IH]; intros m lev H h k x pre ga gb post I A Ek Hl Hab Hn Hf; [lia|].
  pose proof (at_high _ _ _ _ _ _ _ _ _ _ _ I A) as Hh.
  assert (Hstop : beyond (node_of m) k (gb ++ post) -> below (nhigh (s_node (cur x))) k ->
    tot m (Ret (Some x)) (fun m' o => match o with
    | None => fails m lev H k m'
    | Some x' => exists lev' ga' gb', trip m lev H h k x pre post m' x' lev' ga' gb' /\ beyond (node_of m') k (gb' ++ post) /\ below (nhigh (s_node (cur x'))) k
    end)).
  { intros Hb Hbe. apply tot_ret. exists lev, ga, gb. split; [|auto]. constructor; auto.
    - apply samepar_refl. intros E. pose proof (a_par _ _ _ _ _ _ _ _ _ _ A) as Hp. rewrite E in Hp. auto.
    - apply others_refl. }
  simpl sibling_chain. destruct (nhigh (s_node (cur x))) as [[hk n]|] eqn:Ehi.
  - simpl in Hh. rewrite Ek. destruct (kge k hk) eqn:Eg.
    + assert (Hnk : klt k hk = false) by (unfold kge in Eg; destruct (klt k hk); auto; discriminate).
      assert (Hnb : ~ beyond (node_of m) k (gb ++ post)).
      { intros Hb. destruct (gb ++ post) as [|[j oj] l] eqn:El; [simpl in Hh; congruence|]. simpl in Hh. destruct Hh as (k' & E1 & E2). injection E1 as <- <-. inversion Hb as [|? ? Hb1 _]; subst. simpl in Hb1. rewrite E2 in Hb1. simpl in Hb1. congruence. }
      destruct Hn as [Hn|(s & gb0 & -> & Hb)]; [contradiction|]. destruct Hf as [Hf|[_ Hf]]; [|contradiction].
      simpl in Hh. destruct Hh as (k' & E1 & E2). injection E1 as <- <-.
      assert (Hins : In (n, None) (lev h)) by (rewrite (at_lev _ _ _ _ _ _ _ _ _ _ A); apply in_or_app; right; right; left; auto).
      pose proof (at_h _ _ _ _ _ _ _ _ _ _ A) as HhH.
      destruct (t_ok _ _ _ _ (at_tree _ _ _ _ I) h n HhH (ids_in _ _ _ Hins)) as (ns & Es & Hoks). pose proof Es as Gs. apply node_of_get in Gs as (pn & Gs).
      assert (As : atx m lev H h (at_snap x n pn ns) None pre (ga ++ [(s_id (cur x), None)]) gb0 post).
      { constructor; [exact Gs|apply (a_par _ _ _ _ _ _ _ _ _ _ A)|]. cbn. pose proof (a_place _ _ _ _ _ _ _ _ _ _ A) as Pl.
        apply (fun q => eq_ind_r (fun l => place (node_of m) (root m) lev H h (pid (prt x)) pre l post) q (snoc_cons ga (s_id (cur x), None) (n, None) gb0)). exact Pl. }
      assert (Hlf : is_leaf ns = is_leaf (s_node (cur x))).
      { rewrite (at_leaf _ _ _ _ _ _ _ _ _ _ _ I A). destruct Hoks as [HL2 _]. destruct ns; simpl in *; destruct HL2 as [HL2 _]; [rewrite HL2; auto|]. symmetry. apply Nat.eqb_neq. lia. }
      assert (Hne : s_id (cur x) <> n). { intros E. symmetry in E. revert E. eapply (at_ne _ _ _ _ _ _ _ _ _ _ _ I A). right. left. reflexivity. }
      assert (Hlos : nlow ns = Some hk) by (unfold nlo in E2; rewrite Es in E2; auto).
      assert (Habs : above (nlow ns) k) by (rewrite Hlos; simpl; auto).
      pose proof (at_len _ _ _ _ _ _ _ _ _ _ _ I As) as Hlen.
      eapply tot_bind.
      { apply (jump_to_ok f m lev H h k x n None pre (ga ++ [(s_id (cur x), None)]) gb0 post pn ns I As Hlf Hne); [|lia].
        intros _ _. left. split; [unfold nlo; rewrite Es; auto|exact Hb]. }
      intros m1 [x1|] HQ; [|apply tot_ret; exact HQ]. destruct HQ as (lev1 & ga1 & gb1 & Hg).
      destruct (goes_near _ _ _ _ _ _ _ _ _ _ _ _ _ _ _ Hg Habs Hb) as ([t1 t2 t3 t4 t5 t6 t7 t8 t9] & Hn1 & Hp1).
      eapply tot_mono; [apply (IH m1 lev1 H h k x1 pre ga1 gb1 post t1 t3); auto|].
      * rewrite t4. exact Ek.
      * destruct Hp1 as [Hp1|Hp1]; [left; lia|right; split; auto; lia].
      * intros m2 [x2|] HQ.
        -- destruct HQ as (lev2 & ga2 & gb2 & [u1 u2 u3 u4 u5 u6 u7 u8 u9] & Hb2 & Hbe2). exists lev2, ga2, gb2. split; [|auto]. constructor; auto; try congruence; try lia.
           ++ rewrite u4, t4. reflexivity.
           ++ eapply samepar_trans; [exact t5|exact u5].
           ++ eapply others_trans; eauto.
        -- eapply fails_le; eauto.
    + assert (Hk : klt k hk = true) by (unfold kge in Eg; destruct (klt k hk); auto; discriminate).
      apply Hstop; [|simpl; auto]. destruct Hn as [Hn|(s & gb0 & -> & Hb)]; auto.
      simpl in Hh. destruct Hh as (k' & E1 & E2). injection E1 as <- <-. constructor; auto. simpl. rewrite E2. exact Hk.
  - apply Hstop; [|simpl; auto]. simpl in Hh. destruct (gb ++ post) as [|[j oj] l]; [constructor|]. simpl in Hh. destruct Hh as (k' & E1 & _). congruence.
Qed.

(** A level without removed pages. *)
Definition clean_at (N : nmap) (l : list cell) : Prop := Forall (live N) l.
Lemma remrun_clean N l1 i o l2 k : remrun N (l1 ++ (i, o) :: l2) k -> rem N i = false -> above (nlo N i) k -> beyond N k l2 -> clean_at N (l1 ++ (i, o) :: l2).
Proof.
  intros (A & B & C & E & HA & HB & HC & Hk) Hl Hab Hb.
  assert (B = []); [|subst B; rewrite E; simpl; apply Forall_app; auto].
  destruct B as [|b B]; auto. exfalso. destruct Hk as [Hk|[HkC HkB]]; [discriminate|].
  symmetry in E. destruct (cell_split A (b :: B) C (i, o) l1 l2 E) as [(a1 & a2 & -> & _ & ->)|[(b1 & b2 & EB & _)|(c1 & c2 & -> & _)]].
  - unfold beyond in Hb. rewrite !Forall_app in Hb. destruct Hb as (_ & Hb & _). inversion Hb as [|? ? Hb1 _]; subst. inversion HkB as [|? ? Hb2 _]; subst.
    destruct (nlo N (fst b)); simpl in *; auto. congruence.
  - rewrite EB in HB. apply Forall_app in HB as [_ HB]. inversion HB; subst. unfold dead in *. simpl in *. congruence.
  - rewrite Forall_app in HkC. destruct HkC as [_ HkC]. inversion HkC as [|? ? Hb1 _]; subst. simpl in Hb1. destruct (nlo N i); simpl in *; auto. congruence.
Qed.
Lemma clean_others N N' lev lev' H h y : others N N' lev lev' H h -> y <> h -> y <= H -> clean_at N (lev y) -> clean_at N' (lev' y).
Proof.
  intros Ho Hy HyH Hc. destruct (Ho y Hy HyH) as [E F]. rewrite E. unfold clean_at, live in *. rewrite Forall_forall in Hc |- *. intros [j o] Hj. simpl. destruct (F j (ids_in _ _ _ Hj)) as [-> _]. apply (Hc _ Hj).
Qed.

(** What follows a group starts where the group ends. *)
Lemma group_next N r lev H h pre g p op post low hi : tree N r lev H -> h < H -> lev h = pre ++ g ++ (p, op) :: post -> g <> [] ->
  seg N low (ids g) hi -> exists kz, hi = Some (kz, p) /\ nlo N p = Some kz.
Proof.
  intros T Hh El Hg Hs. pose proof (t_seg _ _ _ _ T h ltac:(lia)) as Hsl. pose proof (tree_ranges _ _ _ _ h T ltac:(lia)) as Hrl.
  assert (Er : rangeok N (ids g)). { intros j n Hj. apply Hrl. rewrite El, !ids_app. apply in_or_app. right. apply in_or_app. left. exact Hj. }
  assert (Hg0 : exists g0 z, ids g = g0 ++ [z]). { destruct (exists_last (l := ids g)) as (a & b & E); eauto. destruct g as [|[? ?] ?]; [congruence|discriminate]. }
  destruct Hg0 as (g0 & z & Ez). rewrite El, !ids_app, Ez in Hsl, Hrl. rewrite Ez in Hs, Er.
  change (ids ((p, op) :: post)) with (p :: match op with None => [] | Some s => [s] end ++ ids post) in Hsl, Hrl. rewrite <- app_assoc, app_assoc in Hsl, Hrl.
  destruct (seg_mid _ _ _ _ _ _ Hsl Hrl) as (nz & E5 & kz & E6 & E7). destruct (seg_mid _ _ _ _ _ _ Hs Er) as (nz' & E1' & E2').
  exists kz. split; [|exact E7]. congruence.
Qed.

(** The child of a page responsible for the key. *)
Lemma route_in N r lev H h k Q c : tree N r lev H -> h < H -> In Q (ids (lev (S h))) -> N Q = Some (NInner c) -> is_remove (NInner c) = false ->
  above (ilow c) k -> below (ihigh c) k ->
  exists i oi A0 B0 pre' ga' gb' post' , inavigate k c = Ok i /\ focus N lev h A0 Q B0 pre' (ga' ++ (i, oi) :: gb') post' /\
    above (nlo N i) k /\ beyond N k (gb' ++ post').
Proof.
  intros T HhH HQ En Hl Hab Hbe. destruct (t_ok _ _ _ _ T (S h) Q ltac:(lia) HQ) as (n0 & E0 & Hok & _). rewrite En in E0. injection E0 as <-.
  assert (Eb : ibody c = c) by (destruct c; auto; discriminate). destruct Hok as (_ & W & X & Fr & Rf). rewrite Eb in W, X, Fr, Rf.
  destruct (focus_ex _ _ _ _ h Q T ltac:(lia) HQ) as (A0 & B0 & pre' & g & post' & F).
  destruct (nav_routes _ k c W X (conj Hab Hbe)) as (i & Ei & Hr).
  pose proof F as (_ & El & _ & (c1 & o0 & g' & E1 & Eg & Hsep) & _). rewrite En in E1. injection E1 as <-. rewrite Eb in Eg, Hsep.
  pose proof (tree_good _ _ _ _ h T ltac:(lia)) as Gd. rewrite El in Gd. apply good_app in Gd as [_ Gd]. pose proof Gd as Gd0. apply good_app in Gd as [Gd _].
  assert (Hin : exists oi, In (i, oi) g). { destruct Hr as [(s & Hs & _)|[-> _]]; [apply Hsep in Hs as ((oi & Hs) & _); exists oi; rewrite Eg; right; auto|exists o0; rewrite Eg; left; auto]. }
  destruct Hin as (oi & Hin). apply in_split in Hin as (ga' & gb' & E2).
  exists i, oi, A0, B0, pre', ga', gb', post'. rewrite E2 in *. split; [rewrite (inavigate_nav _ k c W); auto|]. split; [exact F|].
  destruct (good_order _ _ _ _ _ Gd) as [O1 O2].
  destruct (focus_range _ _ _ _ _ _ _ _ _ _ _ c T HhH F En) as (hi & Hs & Hm). rewrite Eb in Hs.
  assert (Hlid : nlo N (ilid c) = ilow c).
  { assert (Eh : exists rr, ids (ga' ++ (i, oi) :: gb') = ilid c :: rr). { replace (ga' ++ (i, oi) :: gb') with ((ilid c, o0) :: g') by (symmetry; exact Eg). simpl. eauto. }
    destruct Eh as (rr & Eh). rewrite Eh in Hs. apply (seg_hd _ _ _ _ _ Hs). }
  split.
  - destruct Hr as [(s & Hs1 & Hs2 & _)|[-> _]]; [apply Hsep in Hs1 as (_ & ->); simpl; auto|rewrite Hlid; auto].
  - assert (Hgb : forall j oj, In (j, oj) gb' -> In (j, oj) g').
    { intros j oj Hj. destruct ga' as [|[a oa] ga1]; simpl in Eg; injection Eg as _ _ <-; auto. apply in_or_app. right. right. auto. }
    apply Forall_app. split.
    + rewrite Forall_forall. intros [j oj] Hj. simpl. pose proof (O2 j oj Hj) as Hlt. destruct (nlo N j) as [xj|] eqn:Exj; [|destruct Hlt]. simpl.
      assert (Hsj : seps c xj j) by (apply Hsep; split; eauto).
      destruct (klt k xj) eqn:Ekx; auto. exfalso. destruct Hr as [(s & Hs1 & Hs2 & Hs3)|[-> Hs3]].
      * specialize (Hs3 xj j Hsj Ekx). apply Hsep in Hs1 as (_ & Es). rewrite Es in Hlt. simpl in Hlt. congruence.
      * specialize (Hs3 xj j Hsj). congruence.
    + destruct post' as [|[p op] post']; [constructor|].
      assert (Hpk : lolt (Some k) (nlo N p)).
      { destruct (group_next _ _ _ _ _ _ _ _ _ _ _ _ T HhH El ltac:(destruct ga'; discriminate) Hs) as (kz & E6 & E7).
        rewrite E7. rewrite E6 in Hm. destruct (ihigh c) as [[b ?]|]; [|destruct Hm]. subst b. exact Hbe. }
      constructor; auto. pose proof Gd0 as Gd1. apply good_app in Gd1 as [_ Gd1]. destruct (good_order _ [] p op post' Gd1) as [_ O3].
      rewrite Forall_forall. intros [j oj] Hj. simpl. eapply lolt_trans; [exact Hpk|]. eapply O3; eauto.
Qed.
Lemma route_cell m lev H h k x pre ga gb post c : minv m lev H k -> atx m lev H (S h) x None pre ga gb post -> s_node (cur x) = NInner c ->
  is_remove (s_node (cur x)) = false -> above (nlow (s_node (cur x))) k -> below (nhigh (s_node (cur x))) k ->
  exists i oi A0 B0 pre' ga' gb' post' , inavigate k c = Ok i /\ focus (node_of m) lev h A0 (s_id (cur x)) B0 pre' (ga' ++ (i, oi) :: gb') post' /\
    above (nlo (node_of m) i) k /\ beyond (node_of m) k (gb' ++ post').
Proof.
  intros I A Ec Hl Hab Hbe. pose proof (at_h _ _ _ _ _ _ _ _ _ _ A) as HhH. pose proof (at_node _ _ _ _ _ _ _ _ _ _ A) as En. rewrite Ec in *.
  apply (route_in _ _ _ _ _ _ _ _ (at_tree _ _ _ _ I)); auto. apply (ids_in _ _ _ (at_in _ _ _ _ _ _ _ _ _ _ A)).
Qed.
Definition clean_above (N : nmap) (lev : nat -> list cell) (h H : nat) : Prop := forall y, h < y -> y <= H -> clean_at N (lev y).
Lemma clean_above_others N N' lev lev' H h : others N N' lev lev' H h -> clean_above N lev h H -> clean_above N' lev' h H.
Proof. intros Ho Hc y Hy HyH. eapply clean_others; [exact Ho|lia|auto|apply Hc; auto]. Qed.

Lemma chain_clean m lev H h k x pre ga gb post : minv m lev H k -> atx m lev H h x None pre ga gb post -> is_remove (s_node (cur x)) = false ->
  above (nlow (s_node (cur x))) k -> beyond (node_of m) k (gb ++ post) -> clean_at (node_of m) (lev h).
Proof.
  intros I A Hl Hab Hb. pose proof (proj2 (proj2 I) h (at_h _ _ _ _ _ _ _ _ _ _ A)) as Hr. pose proof (at_node _ _ _ _ _ _ _ _ _ _ A) as En.
  rewrite (at_lev _ _ _ _ _ _ _ _ _ _ A) in Hr |- *. apply (remrun_clean _ _ _ _ _ k Hr); auto.
  - unfold rem. rewrite En. auto.
  - unfold nlo. rewrite En. auto.
Qed.

(** LoadNodeID on a cell of the tree. *)
Lemma load_node_spec f m lev H h k p i oi pre ga gb post : minv m lev H k ->
  match p with PUninit => False | PRoot => True | PNode ps => cursn m ps end ->
  place (node_of m) (root m) lev H h (pid p) pre (ga ++ (i, oi) :: gb) post ->
  above (nlo (node_of m) i) k -> beyond (node_of m) k (gb ++ post) -> mpot m lev H <= f ->
  tot m (load_node f k p i) (fun m' o => match o with
    | None => fails m lev H k m'
    | Some x' => exists lev' ga' gb', minv m' lev' H k /\ root m' = root m /\ atx m' lev' H h x' None pre ga' gb' post /\ key x' = k /\ samepar p (prt x') /\
        is_remove (s_node (cur x')) = false /\ above (nlow (s_node (cur x'))) k /\ near (node_of m') k gb' post /\
        others (node_of m) (node_of m') lev lev' H h /\ mpot m' lev' H <= mpot m lev H
    end).
Proof.
  intros I Hp Hpl Hab Hb Hf. unfold load_node.
  destruct (place_lev _ _ _ _ _ _ _ _ _ Hpl) as [HhH El].
  assert (Hi : In i (ids (lev h))). { rewrite El. apply (ids_in i oi). apply in_or_app. right. apply in_or_app. left. apply in_elt. }
  destruct (t_ok _ _ _ _ (at_tree _ _ _ _ I) h i HhH Hi) as (ni & En & Hok). pose proof En as Gn. apply node_of_get in Gn as (pi & Gn).
  eapply tot_load; [exact Gn|]. cbn [fst snd].
  set (x := {| key := k; cur := {| s_id := i; s_ptr := pi; s_node := ni |}; prt := p |}).
  assert (A : atx m lev H h x oi pre ga gb post) by (constructor; [exact Gn|exact Hp|exact Hpl]).
  assert (Habn : above (nlow ni) k) by (unfold nlo in Hab; rewrite En in Hab; exact Hab).
  eapply tot_mono; [apply (settle_spec (jump_to f) m lev H h k x oi pre ga gb post I A)|].
  - intros _ _. left. split; [exact Hab|exact Hb].
  - apply (jumpok_le _ _ f); [|apply jump_to_ok]. pose proof (at_len _ _ _ _ _ _ _ _ _ _ _ I A). lia.
  - intros m1 [x1|] HQ; [|exact HQ]. destruct HQ as (lev1 & ga1 & gb1 & Hg).
    destruct (goes_near _ _ _ _ _ _ _ _ _ _ _ _ _ _ _ Hg Habn Hb) as ([t1 t2 t3 t4 t5 t6 t7 t8 t9] & Hn1 & _).
    exists lev1, ga1, gb1. exact (conj t1 (conj t2 (conj t3 (conj t4 (conj t5 (conj t6 (conj t7 (conj Hn1 (conj t8 t9))))))))).
Qed.

(** NavigateInnerNode. *)
Lemma nav_inner_spec f m lev H h k x pre ga gb post : minv m lev H k -> atx m lev H (S h) x None pre ga gb post -> key x = k -> is_remove (s_node (cur x)) = false ->
  above (nlow (s_node (cur x))) k -> near (node_of m) k gb post -> mpot m lev H < f ->
  tot m (nav_inner kge inavigate f x) (fun m' o => match o with
    | None => fails m lev H k m'
    | Some (i, x') => exists lev' ga' gb', trip m lev H (S h) k x pre post m' x' lev' ga' gb' /\ beyond (node_of m') k (gb' ++ post) /\ below (nhigh (s_node (cur x'))) k /\
        exists c, s_node (cur x') = NInner c /\ inavigate k c = Ok i
    end).
Proof.
  intros I A Ek Hl Hab Hn Hf. unfold nav_inner. eapply tot_bind; [apply (chain_spec f m lev H _ k x pre ga gb post I A Ek Hl Hab Hn); left; lia|].
  intros m1 [x1|] HQ; [|apply tot_ret; exact HQ]. destruct HQ as (lev1 & ga1 & gb1 & Ht & Hb1 & Hbe1). pose proof Ht as [t1 t2 t3 t4 t5 t6 t7 t8 t9].
  pose proof (at_leaf _ _ _ _ _ _ _ _ _ _ _ t1 t3) as Hlf. simpl in Hlf.
  destruct (s_node (cur x1)) as [c|c] eqn:Ec; [discriminate|]. rewrite <- Ec in t6, t7, Hbe1.
  destruct (route_cell _ _ _ _ _ _ _ _ _ _ c t1 t3 Ec t6 t7 Hbe1) as (i & oi & A0 & B0 & pre' & ga' & gb' & post' & Ei & _).
  rewrite t4, Ek. eapply tot_liftb; [exact Ei|]. apply tot_ret. exists lev1, ga1, gb1. split; [exact Ht|]. split; [exact Hb1|]. split; [exact Hbe1|]. exists c. auto.
Qed.

(** The loop of Traverse. *)
Lemma descend_spec h : forall f m lev H k x pre ga gb post, minv m lev H k -> atx m lev H (S h) x None pre ga gb post -> key x = k -> is_remove (s_node (cur x)) = false ->
  above (nlow (s_node (cur x))) k -> near (node_of m) k gb post -> clean_above (node_of m) lev (S h) H -> mpot m lev H + h + 1 < f ->
  tot m (descend kge inavigate f x) (fun m' o => match o with
    | None => fails m lev H k m'
    | Some x' => exists lev' pre' ga' gb' post', minv m' lev' H k /\ root m' = root m /\ atx m' lev' H 0 x' None pre' ga' gb' post' /\ key x' = k /\
        is_remove (s_node (cur x')) = false /\ above (nlow (s_node (cur x'))) k /\ near (node_of m') k gb' post' /\
        clean_above (node_of m') lev' 0 H /\ mpot m' lev' H <= mpot m lev H
    end).
Proof.
  induction h as [|h IH]; intros f m lev H k x pre ga gb post I A Ek Hl Hab Hn Hc Hf; (destruct f as [|f]; [lia|]); cbn [descend].
  all: eapply tot_bind; [apply (nav_inner_spec f m lev H _ k x pre ga gb post I A Ek Hl Hab Hn); lia|].
  all: intros m1 [[i x1]|] HQ; [|apply tot_ret; exact HQ]; destruct HQ as (lev1 & ga1 & gb1 & [t1 t2 t3 t4 t5 t6 t7 t8 t9] & Hb1 & Hbe1 & c & Ec & Ei);
    pose proof (chain_clean _ _ _ _ _ _ _ _ _ _ t1 t3 t6 t7 Hb1) as Hcl; pose proof (clean_above_others _ _ _ _ _ _ t8 Hc) as Hca;
    destruct (route_cell _ _ _ _ _ _ _ _ _ _ c t1 t3 Ec t6 t7 Hbe1) as (i2 & oi & A0 & B0 & pre' & ga' & gb' & post' & Ei2 & Fo & Hab2 & Hb2);
    rewrite Ei in Ei2; injection Ei2 as <-; pose proof (at_h _ _ _ _ _ _ _ _ _ _ t3) as HhH;
    pose proof (at_node _ _ _ _ _ _ _ _ _ _ t3) as En1; rewrite t4, Ek;
    (eapply tot_bind; [eapply (load_node_spec f m1 lev1 H _ k (PNode (cur x1)) i oi pre' ga' gb' post' t1);
      [exact (a_cur _ _ _ _ _ _ _ _ _ _ t3)|refine (conj _ (conj (at_in _ _ _ _ _ _ _ _ _ _ t3) (conj _ (ex_intro _ A0 (ex_intro _ B0 Fo))))); [lia|unfold rem; simpl; rewrite En1; exact t6]|exact Hab2|exact Hb2|lia]|]);
    intros m2 [x2|] HQ; [|apply tot_ret; eapply fails_le; [exact t9|exact HQ]]; destruct HQ as (lev2 & ga2 & gb2 & u1 & u2 & u3 & u4 & u5 & u6 & u7 & u8 & u9 & u10);
    rewrite (at_leaf _ _ _ _ _ _ _ _ _ _ _ u1 u3); cbn [Nat.eqb].
  - apply tot_ret. exists lev2, pre', ga2, gb2, post'. split; [exact u1|]. split; [congruence|]. split; [exact u3|]. split; [exact u4|]. split; [exact u6|]. split; [exact u7|]. split; [exact u8|]. split; [|lia].
    apply (clean_above_others _ _ _ _ _ _ u9). intros y Hy HyH. destruct (Nat.eq_dec y 1) as [->|Hne]; auto. apply Hca; auto. lia.
  - eapply tot_mono; [apply (IH f m2 lev2 H k x2 pre' ga2 gb2 post' u1 u3 u4 u6 u7 u8)|].
    + apply (clean_above_others _ _ _ _ _ _ u9). intros y Hy HyH. destruct (Nat.eq_dec y (S (S h))) as [->|Hne]; auto. apply Hca; auto. lia.
    + lia.
    + intros m3 [x3|] HQ.
      * destruct HQ as (lev3 & pre3 & ga3 & gb3 & post3 & v1 & v2 & v3 & v4 & v5 & v6 & v7 & v8 & v9). exists lev3, pre3, ga3, gb3, post3.
        split; [exact v1|]. split; [congruence|]. split; [exact v3|]. split; [exact v4|]. split; [exact v5|]. split; [exact v6|]. split; [exact v7|]. split; [exact v8|]. lia.
      * eapply fails_le; [|exact HQ]. lia.
Qed.

(** Where a traversal ends: at the leaf responsible for the key, in a tree
    without removed pages. *)
Record arrived (m : mem) (lev : nat -> list cell) (H : nat) (k : K) (x : ctx) (c : lchain) (pre ga gb post : list cell) : Prop := {
  v_bound : mbound m;
  v_tree : tree (node_of m) (root m) lev H;
  v_clean : forall h, h <= H -> clean_at (node_of m) (lev h);
  v_at : atx m lev H 0 x None pre ga gb post;
  v_leaf : s_node (cur x) = NLeaf c;
  v_live : is_remove (NLeaf c) = false;
  v_range : in_range c k
}.

Lemma attempt_spec f m lev H k : minv m lev H k -> 2 * mpot m lev H < f ->
  tot m (attempt kge inavigate f k) (fun m' o => match o with
    | None => fails m lev H k m'
    | Some x => exists lev' c pre ga gb post, arrived m' lev' H k x c pre ga gb post /\ mpot m' lev' H <= mpot m lev H
    end).
Proof.
  intros I Hf. pose proof (at_tree _ _ _ _ I) as T. pose proof (tree_height _ _ _ _ T) as Hh. fold (mpot m lev H) in Hh.
  destruct (t_top _ _ _ _ T) as (o & Et). pose proof (t_H _ _ _ _ T) as H1.
  assert (Hlo : nlo (node_of m) (root m) = None). { pose proof (t_seg _ _ _ _ T H ltac:(lia)) as Hs. rewrite Et in Hs. simpl in Hs. destruct Hs as (n & En & Hn & _). unfold nlo. rewrite En. auto. }
  change (tot m (pbind (load_node f k PRoot (root m)) (fun o => match o with None => Ret None | Some x => pbind (descend kge inavigate f x) (fun o' => match o' with None => Ret None | Some y => sibling_chain kge f y end) end))
    (fun m' o => match o with None => fails m lev H k m' | Some x => exists lev' c pre ga gb post, arrived m' lev' H k x c pre ga gb post /\ mpot m' lev' H <= mpot m lev H end)).
  eapply tot_bind; [apply (load_node_spec f m lev H H k PRoot (root m) o [] [] [] [] I)|].
  - exact Logic.I.
  - simpl. split; auto. split; [exact Et|]. split; auto. split; auto. exists o. auto.
  - rewrite Hlo. exact Logic.I.
  - constructor.
  - lia.
  - intros m1 [x1|] HQ; [|apply tot_ret; exact HQ]. destruct HQ as (lev1 & ga1 & gb1 & u1 & u2 & u3 & u4 & u5 & u6 & u7 & u8 & u9 & u10).
    destruct H as [|h]; [lia|].
    eapply tot_bind; [apply (descend_spec h f m1 lev1 (S h) k x1 [] ga1 gb1 [] u1 u3 u4 u6 u7 u8)|].
    + intros y Hy1 Hy2. lia.
    + lia.
    + intros m2 [x2|] HQ; [|apply tot_ret; eapply fails_le; [exact u10|exact HQ]].
      destruct HQ as (lev2 & pre2 & ga2 & gb2 & post2 & v1 & v2 & v3 & v4 & v5 & v6 & v7 & v8 & v9).
      eapply tot_mono; [apply (chain_spec f m2 lev2 (S h) 0 k x2 pre2 ga2 gb2 post2 v1 v3 v4 v5 v6 v7); left; lia|].
      intros m3 [x3|] HQ; [|eapply fails_le; [|exact HQ]; lia].
      destruct HQ as (lev3 & ga3 & gb3 & [w1 w2 w3 w4 w5 w6 w7 w8 w9] & Hb & Hbe).
      pose proof (at_leaf _ _ _ _ _ _ _ _ _ _ _ w1 w3) as Hlf. simpl in Hlf. destruct (s_node (cur x3)) as [c|c] eqn:Ec; [|discriminate].
      pose proof w6 as w6'. pose proof w7 as w7'. rewrite <- Ec in w6', w7'.
      exists lev3, c, pre2, ga3, gb3, post2. split; [|lia]. constructor; auto.
      * apply w1.
      * apply w1.
      * intros y Hy. destruct (Nat.eq_dec y 0) as [->|Hne]; [apply (chain_clean _ _ _ _ _ _ _ _ _ _ w1 w3 w6' w7' Hb)|].
        apply (clean_above_others _ _ _ _ _ _ w8 v8); auto. lia.
      * split; auto.
Qed.

Lemma traverse_spec f : forall m lev H k, minv m lev H k -> 3 * mpot m lev H < f ->
  tot m (traverse f k) (fun m' x => exists lev' H' c pre ga gb post, arrived m' lev' H' k x c pre ga gb post /\ mpot m' lev' H' <= mpot m lev H).
Proof.
  induction f as [|f IH]; intros m lev H k I Hf; [lia|]. unfold traverse in *. cbn [traverse_with].
  pose proof (tree_height _ _ _ _ (at_tree _ _ _ _ I)) as Hh. fold (mpot m lev H) in Hh.
  eapply tot_bind; [apply (attempt_spec f m lev H k I); lia|].
  intros m1 [x|] HQ.
  - destruct HQ as (lev1 & c & pre & ga & gb & post & Hv & Hp). apply tot_ret. exists lev1, H, c, pre, ga, gb, post. auto.
  - destruct HQ as (lev1 & H1 & I1 & Hp). eapply tot_mono; [apply (IH m1 lev1 H1 k I1); lia|].
    intros m2 x (lev2 & H2 & c & pre & ga & gb & post & Hv & Hp2). exists lev2, H2, c, pre, ga, gb, post. split; auto. lia.
Qed.
End SeqTrav.
