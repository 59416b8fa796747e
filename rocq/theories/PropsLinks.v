(** Pages absorbed and taken out of their parent (C52), and reclamation with
    removed pages (C46). *)
From Coq Require Import NArith List Arith Lia Bool.
From Verif Require Import Base Leaf LeafSpec Inner InnerSpec InnerProofs Tree TreeSpec TreeInv TreeRun Inst PropsTree SeqRun PropsSeq PropsProgress MarkerSpec Marker PropsMarker GarbageSpec Garbage LinkSpec Links LinkProg LinkExec FateSpec Fate.
Import ListNotations.

Section C52.
Context {P : Params}.
Lemma exec_lived tr ss s : exec tr ss s -> exists L, lived s L.
Proof. induction 1 as [|tr ss s e s' H [L IH] Hs]; [eexists; constructor|]. eexists. econstructor; eauto. Qed.
Lemma exec_gok tr ss s : exec tr ss s -> exists w lv L, wm w = sm s /\ gok {| gw := w; lev := lv; gl := L |}.
Proof. intros H. destruct (exec_lived _ _ _ H) as [L Hl]. destruct (lived_gok _ _ Hl) as (w & lv & A & B). eauto. Qed.
Lemma fated_owners s F : fated s F -> exists L S, facts s /\ ginv s L S /\ rel s L F /\ (forall p n, heap (sm s) p = Some n -> markok (cw (sm s)) n) /\ forall p n, heap (sm s) p = Some n -> (p < nptr (sm s))%N.
Proof.
  intros H. destruct (fated_rel _ _ H) as (L & Hl & HR). destruct (lived_ginv _ _ Hl) as [S HS]. destruct (lived_exec _ _ Hl) as (tr & ss & Hx). destruct (exec_minv _ _ _ Hx) as [D Hm].
  exists L, S. split; [eapply lived_facts; eauto|]. split; auto. split; auto. split; intros p n E; apply (mi_heap _ _ Hm _ _ E).
Qed.

(** * C52 *)
(** A page is absorbed by at most one other page, once. *)
Theorem C52_merged_once : forall tr ss (s : sys) p q n n' d, exec tr ss s -> heap (sm s) p = Some n -> heap (sm s) q = Some n' -> merges n d -> merges n' d -> p = q.
Proof. intros tr ss s p q n n' d Hx. destruct (exec_gok _ _ _ Hx) as (w & lv & L & <- & Hk). apply (o_once _ Hk). Qed.
(** What is absorbed is the content of that page, which stays marked removed
    with that content. *)
Theorem C52_merge_content : forall tr ss (s : sys) p n d, exec tr ss s -> heap (sm s) p = Some n -> merges n d ->
  exists rn, node_of (sm s) d = Some rn /\ is_remove rn = true /\ absorbs n d rn.
Proof.
  intros tr ss s p n d Hx Hp Hd. destruct (exec_gok _ _ _ Hx) as (w & lv & L & E & Hk). destruct (o_gone _ Hk p n d) as (q & rn & _ & Hg & Ha); auto; [unfold gm; cbn [gw]; rewrite E; auto|].
  exists rn. rewrite <- E. split; [apply node_of_get; eauto|]. split; auto. eapply absorbs_remove; eauto.
Qed.
(** Its separator is deleted from the parent at most once, and only after it
    has been absorbed. *)
Theorem C52_cut_once : forall tr ss (s : sys) p q n n' d, exec tr ss s -> heap (sm s) p = Some n -> heap (sm s) q = Some n' -> cuts n d -> cuts n' d -> p = q.
Proof. intros tr ss s p q n n' d Hx. destruct (exec_gok _ _ _ Hx) as (w & lv & L & <- & Hk). apply (o_one _ Hk). Qed.
Theorem C52_cut_merged : forall tr ss (s : sys) d, exec tr ss s -> cut (sm s) d -> merged (sm s) d.
Proof. intros tr ss s d Hx. destruct (exec_gok _ _ _ Hx) as (w & lv & L & <- & Hk). apply (o_cut _ Hk). Qed.

Lemma down_lev x i l : gok x -> down (gm x) i l -> pub (gw x) i /\ lev x i + l = lev x (root (gm x)) /\ ~ cut (gm x) i.
Proof.
  intros Hk H. pose proof (o_ok _ Hk) as Hok. induction H as [|i l n d H IH Hn Hr Hd|i l n h d H IH Hn Hr Hh].
  - split; [apply (k_root _ Hok)|]. split; [lia|]. intros Hc. apply (o_cutlev _ Hk) in Hc. lia.
  - destruct IH as (Hp & El & Hc). destruct (k_pub _ Hok _ Hp) as (n' & Hn' & Hb & _). assert (n' = n) by (unfold gm in *; congruence). subst n'. apply kid_ref in Hd as Hd'. split; [eapply nref_pub; eauto|].
    split; [pose proof (o_lref _ Hk _ _ _ Hp Hn Hd'); lia|]. apply (o_kid _ Hk i n d); auto. eapply live_kept; eauto.
  - destruct IH as (Hp & El & Hc). destruct (k_pub _ Hok _ Hp) as (n' & Hn' & _ & Hx). assert (n' = n) by (unfold gm in *; congruence). subst n'. split; [apply (Hx _ _ Hh)|].
    assert (Hxd : nx (gm x) i d) by (exists n, h; auto). split; [rewrite (o_lnx _ Hk _ _ Hp Hxd); auto|]. intros Hcd. apply (o_cut _ Hk) in Hcd. revert Hcd. apply (o_next _ Hk i); auto. eapply live_kept; eauto.
Qed.
(** After that nobody gets to it from the root any more. *)
Theorem C52_cut_unreachable : forall tr ss (s : sys) i l, exec tr ss s -> down (sm s) i l -> ~ cut (sm s) i.
Proof. intros tr ss s i l Hx. destruct (exec_gok _ _ _ Hx) as (w & lv & L & <- & Hk). intros Hd. apply (down_lev _ _ _ Hk Hd). Qed.
(** Every page has one depth. *)
Theorem C52_depth : forall tr ss (s : sys) i l l', exec tr ss s -> down (sm s) i l -> down (sm s) i l' -> l = l'.
Proof.
  intros tr ss s i l l' Hx. destruct (exec_gok _ _ _ Hx) as (w & lv & L & <- & Hk). intros H H'. destruct (down_lev _ _ _ Hk H) as (_ & E & _), (down_lev _ _ _ Hk H') as (_ & E' & _). lia.
Qed.
(** Pages of one depth that have not been absorbed have disjoint ranges of keys. *)
Theorem C52_disjoint : forall tr ss (s : sys) i j l a b, exec tr ss s -> down (sm s) i l -> down (sm s) j l -> ~ merged (sm s) i -> ~ merged (sm s) j ->
  node_of (sm s) i = Some a -> node_of (sm s) j = Some b -> i = j \/ bef a b \/ bef b a.
Proof.
  intros tr ss s i j l a b Hx. destruct (exec_gok _ _ _ Hx) as (w & lv & L & <- & Hk). intros H H' Hm Hm' Ha Hb. destruct (down_lev _ _ _ Hk H) as (Hp & E & _), (down_lev _ _ _ Hk H') as (Hp' & E' & _).
  apply (o_part _ Hk i j a b); auto; [split; auto|split; auto|]. lia.
Qed.
(** A page is a child of one of them only. *)
Theorem C52_one_parent : forall tr ss (s : sys) i j l l' a b d, exec tr ss s -> down (sm s) i l -> down (sm s) j l' -> ~ merged (sm s) i -> ~ merged (sm s) j ->
  node_of (sm s) i = Some a -> node_of (sm s) j = Some b -> kid a d -> kid b d -> i = j.
Proof.
  intros tr ss s i j l l' a b d Hx. destruct (exec_gok _ _ _ Hx) as (w & lv & L & <- & Hk). intros H H' Hm Hm' Ha Hb Ka Kb. destruct (down_lev _ _ _ Hk H) as (Hp & E & _), (down_lev _ _ _ Hk H') as (Hp' & E' & _).
  set (x := {| gw := w; lev := lv; gl := L |}) in *. pose proof (o_ok _ Hk) as Hok. destruct (k_pub _ Hok _ Hp) as (a' & Ha' & Ba & _). destruct (k_pub _ Hok _ Hp') as (b' & Hb' & Bb & _).
  cbn [gw x] in Ha', Hb', Ba, Bb. assert (a' = a) by congruence. assert (b' = b) by congruence. subst a' b'.
  assert (El : lev x i = lev x j) by (rewrite (o_lref _ Hk i a d), (o_lref _ Hk j b d); auto; apply kid_ref; auto).
  destruct (lo (wm w) d) as [k|] eqn:Ed.
  - destruct (kid_range _ _ _ _ Ba Ka Ed) as [A1 A2]. destruct (kid_range _ _ _ _ Bb Kb Ed) as [B1 B2]. apply (same_page x i j a b k); auto; split; auto.
  - assert (Low : forall n, bodyok w n -> kid n d -> nlow n = None).
    { intros n Hn Hd. destruct (kid_body _ _ _ Hn Hd) as (c & [Hw _] & E1 & _ & [->|[q Hq]]); [rewrite <- E1, <- (iwf_lid _ _ Hw); auto|]. destruct (seps_range _ _ Hw _ _ Hq) as (H1 & H2 & H3). congruence. }
    destruct (o_part _ Hk i j a b) as [Eij|[Hbf|Hbf]]; auto; try (split; auto; fail); exfalso; unfold bef in Hbf; [rewrite (Low b) in Hbf by auto|rewrite (Low a) in Hbf by auto]; destruct (nhigh _) as [[? ?]|]; auto.
Qed.
(** All leaves that are not removed have the same depth. *)
Lemma reach_lev x i : gok x -> reach (gm x) i -> pub (gw x) i /\ lev x i = lev x FIRST_LEAF.
Proof.
  intros Hk H. pose proof (o_ok _ Hk) as Hok. induction H as [|i c h d H IH Hn Hh]; [split; auto; apply (k_first _ Hok)|]. destruct IH as [Hp El].
  destruct (k_pub _ Hok _ Hp) as (n & Hn' & _ & Hx). assert (n = NLeaf c) by (unfold gm in *; congruence). subst n. split; [apply (Hx _ _ Hh)|]. rewrite <- El. apply (o_lnx _ Hk); auto. exists (NLeaf c), h. auto.
Qed.
Theorem C52_leaf_depth : forall tr ss (s : sys) i j l l' a b, exec tr ss s -> down (sm s) i l -> down (sm s) j l' ->
  node_of (sm s) i = Some (NLeaf a) -> node_of (sm s) j = Some (NLeaf b) -> is_remove (NLeaf a) = false -> is_remove (NLeaf b) = false -> l = l'.
Proof.
  intros tr ss s i j l l' a b Hx. destruct (exec_gok _ _ _ Hx) as (w & lv & L & <- & Hk). intros H H' Ha Hb Ra Rb. destruct (down_lev _ _ _ Hk H) as (Hp & E & _), (down_lev _ _ _ Hk H') as (Hp' & E' & _).
  pose proof (o_ok _ Hk) as Hok. destruct (reach_lev _ _ Hk (k_live _ Hok _ _ Hp Ha Ra)) as [_ E1]. destruct (reach_lev _ _ Hk (k_live _ Hok _ _ Hp' Hb Rb)) as [_ E2]. lia.
Qed.

(** * C46 *)
(** Nothing is handed over twice. *)
Theorem C46_once : forall (s : sys) F, fated s F -> NoDup (handed F).
Proof. intros s F H. destruct (fated_rel _ _ H) as (L & _ & HR). apply (r_once _ _ _ HR). Qed.
(** Every node belongs to exactly one chain: that of one page, or one that has
    been handed over. *)
Theorem C46_one_chain : forall (s : sys) F x n, fated s F -> heap (sm s) x = Some n ->
  exists g, owner s F g /\ under F g x /\ forall g', owner s F g' -> under F g' x -> g' = g.
Proof. intros s F x n H Hx. destruct (fated_owners _ _ H) as (L & St & Hf & HS & HR & Hmk & Hlow). exact (one_owner _ _ _ _ Hf HS HR Hmk Hlow _ _ Hx). Qed.
(** A node of a chain that has been handed over is in no page whose separator
    has not been deleted; so it is in no page one can get to from the root. *)
Theorem C46_not_in_pages : forall (s : sys) F g x i, fated s F -> In g (handed F) -> under F g x -> ~ cut (sm s) i ->
  forall h, tab (sm s) i = Some h \/ (exists p, blocked (sm s) i p h) \/ (exists q, tab (sm s) i = Some q /\ In (q, h) (pend F) /\ ~ merged (sm s) i) -> ~ under F h x.
Proof.
  intros s F g x i H Hg Hu Hd h Hh Hu'. destruct (fated_owners _ _ H) as (L & St & Hf & HS & HR & Hmk & Hlow).
  assert (Hov : forall q b, In (q, b) (over L) -> exists y, heap (sm s) b = Some y).
  { intros q b Hin. apply (g_under _ _ _ HS) in Hin. destruct (g_real _ _ _ HS _ _ Hin) as (na & nb & E & _). eauto. }
  assert (Hx : exists y, heap (sm s) x = Some y).
  { inversion Hu as [|a b Hu2 Hin]; subst.
    - apply (r_handed _ _ _ HR) in Hg as [Hg|(d & Hc & Ht)]; [apply (g_given _ _ _ HS) in Hg; destruct (g_kind _ _ _ HS _ Hg) as (y & E & _); eauto|].
      apply (f_cut _ Hf) in Hc. destruct (merged_tab _ _ Hf Hc) as (q & rn & A & B & _). assert (q = x) by congruence. subst. eauto.
    - apply (r_goes _ _ _ HR) in Hin as (n & _ & [[Hin _]|(d & q & _ & _ & Hin)]); eauto. }
  destruct Hx as [y Hx]. destruct (one_owner _ _ _ _ Hf HS HR Hmk Hlow _ _ Hx) as (g0 & _ & _ & Hone).
  assert (Eg : g = g0) by (apply Hone; auto; right; right; right; auto). assert (Eh : h = g0).
  { apply Hone; auto. destruct Hh as [Hh|[[p Hh]|(q & A & B & C)]]; [left; eauto|right; left; eauto|right; right; left; eauto]. }
  subst g0. subst h.
  apply (r_handed _ _ _ HR) in Hg as [Hg|(d & Hc & Ht)].
  - apply (g_given _ _ _ HS) in Hg. destruct Hh as [Hh|[Hh|(q & _ & B & _)]]; [apply (g_cur _ _ _ HS) in Hh|apply (g_held _ _ _ HS) in Hh|apply (r_pend _ _ _ HR) in B as [B _]; apply (g_under _ _ _ HS) in B]; congruence.
  - apply (g_cur _ _ _ HS) in Ht. destruct Hh as [Hh|[Hh|(q & _ & B & _)]]; [apply (g_cur _ _ _ HS) in Hh|apply (g_held _ _ _ HS) in Hh|apply (r_pend _ _ _ HR) in B as [B _]; apply (g_under _ _ _ HS) in B]; try congruence.
Qed.
Theorem C46_unreachable : forall (s : sys) F g x i l, fated s F -> In g (handed F) -> under F g x -> down (sm s) i l ->
  forall h, tab (sm s) i = Some h \/ (exists p, blocked (sm s) i p h) \/ (exists q, tab (sm s) i = Some q /\ In (q, h) (pend F) /\ ~ merged (sm s) i) -> ~ under F h x.
Proof.
  intros s F g x i l H Hg Hu Hd. eapply C46_not_in_pages; eauto. destruct (fated_rel _ _ H) as (L & Hl & _). destruct (lived_exec _ _ Hl) as (tr & ss & Hex). eapply C52_cut_unreachable; eauto.
Qed.
(** Reclamation goes from a node to its child, or to the right branch of a
    merge, and never from or to a remove node or a marker. *)
Definition plain (n : node) : Prop := is_remove n = false /\ forall q c, n <> NInner (IAbort q c).
Theorem C46_goes_real : forall (s : sys) F a b, fated s F -> In (a, b) (goes F) ->
  exists na nb, heap (sm s) a = Some na /\ heap (sm s) b = Some nb /\ (child na = Some nb \/ right_branch na = Some nb) /\ plain na /\ plain nb.
Proof.
  intros s F a b H Hin. destruct (fated_owners _ _ H) as (L & St & Hf & HS & HR & Hmk & Hlow). apply (r_goes _ _ _ HR) in Hin. destruct Hin as (na & Hna & Hin).
  assert (Pl : forall n, unmarked n -> is_remove n = false -> plain n) by (intros n A B; split; auto; intros q c ->; contradiction).
  destruct Hin as [[Hin Hr]|(d & q & Hd & Ht & Hin)]; apply (g_under _ _ _ HS) in Hin; destruct (g_real _ _ _ HS _ _ Hin) as (nb & nq & A & B & [C1 C2] & D & E).
  - assert (nq = na) by congruence. subst nq. exists na, nb. auto 6.
  - destruct (f_gone _ Hf _ _ _ Hna Hd) as (q' & rn & Hg & Ha). apply get_tab in Hg as [Ht' Hq']. assert (q' = q) by congruence. subst q'. assert (nq = rn) by congruence. subst nq.
    exists na, nb. split; auto. split; auto. split; [|split; [apply merges_kind in Hd; apply Pl; tauto|auto]]. right. destruct na as [[]|[]], rn as [[]|[]]; simpl in Ha, E; try contradiction; destruct Ha as [_ ->]; simpl; congruence.
Qed.
(** And it goes to all of them: to the child, and to the right branch, which are
    two different nodes. *)
Theorem C46_goes_complete : forall (s : sys) F a na c, fated s F -> heap (sm s) a = Some na -> plain na -> child na = Some c ->
  exists b, In (a, b) (goes F) /\ heap (sm s) b = Some c /\
    forall r, right_branch na = Some r -> exists b', In (a, b') (goes F) /\ heap (sm s) b' = Some r /\ b' <> b.
Proof.
  intros s F a na c H Ha [Hr Hm] Hc. destruct (fated_owners _ _ H) as (L & St & Hf & HS & HR & Hmk & Hlow).
  destruct (g_full _ _ _ HS _ _ Ha) as [b Hb]; [destruct na as [|[]]; simpl; auto; destruct (Hm p c0); auto|destruct na as [[]|[]]; simpl in *; auto; congruence|].
  destruct (g_real _ _ _ HS _ _ Hb) as (nb & na' & A & B & _ & _ & E). assert (na' = na) by congruence. subst na'. exists b. split; [|split; [congruence|]].
  - apply (r_goes _ _ _ HR). exists na. split; auto. left. split; auto. apply (g_under _ _ _ HS). auto.
  - intros r Er. assert (Hd : exists d, merges na d) by (destruct na as [[]|[]]; try discriminate; eexists; reflexivity). destruct Hd as [d Hd].
    destruct (f_gone _ Hf _ _ _ Ha Hd) as (q & rn & Hg & Hab). apply get_tab in Hg as [Ht Hq]. destruct (g_full _ _ _ HS _ _ Hq) as [b' Hb']; [destruct na as [[]|[]], rn as [[]|[]]; simpl in *; tauto|destruct na as [[]|[]], rn as [[]|[]]; simpl in *; tauto|].
    destruct (g_real _ _ _ HS _ _ Hb') as (nb' & rn' & A' & B' & _ & _ & E'). assert (rn' = rn) by congruence. subst rn'. exists b'. split; [|split].
    + apply (r_goes _ _ _ HR). exists na. split; auto. right. exists d, q. split; auto. split; auto. apply (g_under _ _ _ HS). auto.
    + destruct na as [[]|[]], rn as [[]|[]]; simpl in *; try contradiction; destruct Hab as [_ ->]; congruence.
    + intros ->. apply absorbs_remove in Hab. congruence.
Qed.
(** A remove node is handed over exactly when the separator of its page has been
    deleted. *)
Theorem C46_remove_nodes : forall (s : sys) F g n, fated s F -> heap (sm s) g = Some n -> is_remove n = true ->
  (In g (handed F) <-> exists d, cut (sm s) d /\ tab (sm s) d = Some g).
Proof.
  intros s F g n H Hg Hr. destruct (fated_owners _ _ H) as (L & St & Hf & HS & HR & Hmk & Hlow). rewrite (r_handed _ _ _ HR). split; [|auto]. intros [Hin|Hin]; auto.
  apply (g_given _ _ _ HS) in Hin. destruct (g_kind _ _ _ HS _ Hin) as (y & A & B). congruence.
Qed.
End C52.
Print Assumptions C52_merged_once.
Print Assumptions C52_merge_content.
Print Assumptions C52_cut_once.
Print Assumptions C52_cut_merged.
Print Assumptions C52_cut_unreachable.
Print Assumptions C52_depth.
Print Assumptions C52_disjoint.
Print Assumptions C52_one_parent.
Print Assumptions C52_leaf_depth.
Print Assumptions C46_once.
Print Assumptions C46_one_chain.
Print Assumptions C46_not_in_pages.
Print Assumptions C46_unreachable.
Print Assumptions C46_goes_real.
Print Assumptions C46_goes_complete.
Print Assumptions C46_remove_nodes.

(** * Examples *)
Fixpoint fate_of {P : Params} (tr : list event) (ss : list sys) : flog :=
  match tr, ss with
  | e :: tr', _ :: (s :: _) as ss' => fate s e (fate_of tr' ss')
  | _, _ => {| handed := []; goes := []; pend := [] |}
  end.
Lemma fate_ok {P : Params} tr ss s : exec tr ss s -> fated s (fate_of tr ss) /\ exists ss', ss = s :: ss'.
Proof.
  induction 1 as [|tr ss s e s' H [IH [ss' ->]] Hs]; [split; [constructor|exists []; auto]|]. split; [|eauto]. cbn [fate_of]. constructor; auto.
Qed.
#[local] Existing Instance natP.
(** The keys 1 to 200 are inserted, on three pages, and then 70 to 125 deleted.
    Page 3 was removed (271), absorbed by page 2 (272) and taken out of the parent (273).
    Then page 2 was consolidated.  Handed over are the remove node 271, and the
    merge node 272 with what page 3 had (269). *)
Definition shrunk : list cmd := ins 1 200 ++ del 70 56.
Definition links_case (s : sys) : bool :=
  match node_of (sm s) (root (sm s)) with
  | Some (NInner c) =>
      match node_of (sm s) (ilid c) with
      | Some a =>
          match nhigh a with
          | Some (_, j) =>
              match node_of (sm s) j with
              | Some b => negb (is_remove (NInner c)) && negb (is_remove a) && negb (is_remove b) && is_leaf a && is_leaf b && negb (ilid c =? j)
              | None => false
              end
          | None => false
          end
      | None => false
      end
  | _ => false
  end &&
  match heap (sm s) 272%N with Some (NLeaf (LMerge _ d _ _)) => d =? 3 | _ => false end &&
  match heap (sm s) 273%N with Some (NInner (IDel (_, d) _ _ _ _)) => d =? 3 | _ => false end.
Lemma links_case_ok tr ss s : exec tr ss s -> links_case s = true -> exists n n' i j l l', heap (sm s) 272%N = Some n /\ merges n 3 /\ heap (sm s) 273%N = Some n' /\ cuts n' 3 /\
  i <> j /\ down (sm s) i 1 /\ down (sm s) j 1 /\ ~ merged (sm s) i /\ ~ merged (sm s) j /\
  node_of (sm s) i = Some (NLeaf l) /\ node_of (sm s) j = Some (NLeaf l') /\ is_remove (NLeaf l) = false /\ is_remove (NLeaf l') = false /\
  exists r, node_of (sm s) (root (sm s)) = Some r /\ kid r i /\ ~ merged (sm s) (root (sm s)).
Proof.
  intros Hx E. apply andb_true_iff in E as [E E3]. apply andb_true_iff in E as [E1 E2].
  assert (Hnm : forall i n, node_of (sm s) i = Some n -> is_remove n = false -> ~ merged (sm s) i).
  { intros i n Hn Hr (p & m & Hp & Hd). destruct (C52_merge_content _ _ _ _ _ _ Hx Hp Hd) as (rn & A & B & _). congruence. }
  destruct (node_of (sm s) (root (sm s))) as [[|c]|] eqn:Er; try discriminate. destruct (node_of (sm s) (ilid c)) as [a|] eqn:Ea; [|discriminate]. destruct (nhigh a) as [[h j]|] eqn:Eh; [|discriminate].
  destruct (node_of (sm s) j) as [b|] eqn:Eb; [|discriminate].
  apply andb_true_iff in E1 as [E1 D1]. apply andb_true_iff in E1 as [E1 D2]. apply andb_true_iff in E1 as [E1 D3]. apply andb_true_iff in E1 as [E1 D4]. apply andb_true_iff in E1 as [D6 D5].
  apply negb_true_iff in D1, D4, D5, D6. apply Nat.eqb_neq in D1. destruct a as [la|]; [|discriminate]. destruct b as [lb|]; [|discriminate].
  destruct (heap (sm s) 272) as [[[]|]|] eqn:E6; try discriminate. destruct (heap (sm s) 273) as [[|[| |[kk dd]| | | |]]|] eqn:E7; try discriminate. apply Nat.eqb_eq in E2, E3. subst.
  assert (Hd : down (sm s) (ilid c) 1) by (eapply dn_kid; [apply dn_root|exact Er|auto|left; reflexivity]).
  eexists _, _, (ilid c), j, la, lb. split; [reflexivity|]. split; [reflexivity|]. split; [reflexivity|]. split; [reflexivity|]. split; auto. split; auto. split; [eapply dn_next; eauto|].
  split; [eapply Hnm; eauto|]. split; [eapply Hnm; eauto|]. split; auto. split; auto. split; auto. split; auto. exists (NInner c). split; auto. split; [left; auto|eapply Hnm; eauto].
Qed.
Example C52_example : exists tr ss (s : sys) n n' i j l l', exec tr ss s /\ heap (sm s) 272%N = Some n /\ merges n 3 /\ heap (sm s) 273%N = Some n' /\ cuts n' 3 /\
  i <> j /\ down (sm s) i 1 /\ down (sm s) j 1 /\ ~ merged (sm s) i /\ ~ merged (sm s) j /\
  node_of (sm s) i = Some (NLeaf l) /\ node_of (sm s) j = Some (NLeaf l') /\ is_remove (NLeaf l) = false /\ is_remove (NLeaf l') = false /\
  exists r, node_of (sm s) (root (sm s)) = Some r /\ kid r i /\ ~ merged (sm s) (root (sm s)).
Proof.
  destruct (links_case_ok _ _ _ (play_exec shrunk)) as (n & n' & i & j & l & l' & H); [vm_compute; reflexivity|].
  exists (c_tr (play shrunk)), (c_ss (play shrunk)), (c_s (play shrunk)), n, n', i, j, l, l'. split; [apply play_exec|exact H].
Qed.
Definition inb (x : N) (l : list N) : bool := existsb (N.eqb x) l.
Lemma inb_ok x l : inb x l = true -> In x l. Proof. intros H. apply existsb_exists in H as (y & Hy & E). apply N.eqb_eq in E. subst. auto. Qed.
Definition in2b (x : N * N) (l : list (N * N)) : bool := existsb (fun y => N.eqb (fst x) (fst y) && N.eqb (snd x) (snd y)) l.
Lemma in2b_ok x l : in2b x l = true -> In x l.
Proof. intros H. apply existsb_exists in H as ([y z] & Hy & E). apply andb_true_iff in E as [A B]. apply N.eqb_eq in A, B. destruct x. simpl in *. subst. auto. Qed.
Example C46_removed_example : exists (s : sys) F n r, fated s F /\ heap (sm s) 271%N = Some n /\ is_remove n = true /\ In 271%N (handed F) /\
  heap (sm s) 272%N = Some r /\ right_branch r <> None /\ plain r /\ In 272%N (handed F) /\ In (272, 269)%N (goes F) /\ 20 <= length (handed F).
Proof.
  set (c := play shrunk). destruct (fate_ok _ _ _ (play_exec shrunk)) as [Hf _]. fold c in Hf.
  assert (E : match heap (sm (c_s c)) 271%N with Some n => is_remove n | None => false end && match heap (sm (c_s c)) 272%N with Some (NLeaf (LMerge _ _ _ _)) => true | _ => false end &&
    (let F := fate_of (c_tr c) (c_ss c) in inb 271%N (handed F) && inb 272%N (handed F) && in2b (272, 269)%N (goes F) && (20 <=? length (handed F))) = true) by (vm_compute; reflexivity).
  set (F := fate_of (c_tr c) (c_ss c)) in *. clearbody F. clearbody c. cbv zeta in E. apply andb_true_iff in E as [E E3]. apply andb_true_iff in E as [E1 E2].
  apply andb_true_iff in E3 as [E3 D1]. apply andb_true_iff in E3 as [E3 D2]. apply andb_true_iff in E3 as [D4 D3].
  destruct (heap (sm (c_s c)) 271) as [n|] eqn:E5; [|discriminate]. destruct (heap (sm (c_s c)) 272) as [[[]|]|] eqn:E6; try discriminate.
  eexists (c_s c), F, n, _. split; auto. split; auto. split; auto. split; [apply inb_ok; auto|]. split; [exact E6|]. split; [discriminate|]. split; [split; [reflexivity|discriminate]|]. split; [apply inb_ok; auto|].
  split; [apply in2b_ok; auto|]. apply Nat.leb_le. auto.
Qed.
