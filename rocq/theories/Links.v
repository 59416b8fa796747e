(** Pages of one level partition the keys; a page is absorbed once, and taken
    out of its parent once. *)
From Coq Require Import NArith List Arith Lia Bool ZArith.
From Verif Require Import Base Leaf LeafSpec LeafProofs LeafWeak LeafProofs2 Inner InnerSpec InnerProofs InnerProofs2 Tree TreeSpec TreeInv TreeSafe TreeProg TreeLin TreeRoom MarkerSpec Marker GarbageSpec Garbage LinkSpec.
Import ListNotations.

Section Links.
Context {P : Params}.

(** * States *)
(** A level is assigned to each page; [gl] is the log of C46. *)
Record gst := { gw : world; lev : nat -> nat; gl : log }.
Definition gm (x : gst) : mem := wm (gw x).
Definition stale (L : log) (p : N) : Prop := In p (given L) \/ exists b, In (b, p) (over L).
Definition nx (m : mem) (i d : nat) : Prop := exists n h, node_of m i = Some n /\ nhigh n = Some (h, d).
Definition nref (n : node) (x : nat) : Prop := match n with NInner c => irefs c x | NLeaf _ => False end.
Definition kept (w : world) (i : nat) : Prop := pub w i /\ ~ merged (wm w) i.

Record gok (x : gst) : Prop := {
  o_ok : wok (gw x);
  o_part : forall i j a b, kept (gw x) i -> kept (gw x) j -> lev x i = lev x j -> node_of (gm x) i = Some a -> node_of (gm x) j = Some b -> i = j \/ bef a b \/ bef b a;
  o_next : forall i d, kept (gw x) i -> nx (gm x) i d -> ~ merged (gm x) d;
  o_gone : forall p n d, heap (gm x) p = Some n -> merges n d -> exists q rn, pub (gw x) d /\ get (gm x) d = Some (q, rn) /\ absorbs n d rn;
  o_lnx : forall i d, pub (gw x) i -> nx (gm x) i d -> lev x d = lev x i;
  o_lref : forall i n d, pub (gw x) i -> node_of (gm x) i = Some n -> nref n d -> lev x i = S (lev x d);
  o_top : forall i, pub (gw x) i -> lev x i <= lev x (root (gm x));
  o_cut : forall d, cut (gm x) d -> merged (gm x) d;
  o_cutlev : forall d, cut (gm x) d -> lev x d < lev x (root (gm x));
  o_kid : forall i n d, kept (gw x) i -> node_of (gm x) i = Some n -> kid n d -> ~ cut (gm x) d;
  o_once : forall p q n n' d, heap (gm x) p = Some n -> heap (gm x) q = Some n' -> merges n d -> merges n' d -> p = q;
  o_one : forall p q n n' d, heap (gm x) p = Some n -> heap (gm x) q = Some n' -> cuts n d -> cuts n' d -> p = q;
  o_cur : forall i p, tab (gm x) i = Some p -> ~ stale (gl x) p;
  o_mark : forall p n, heap (gm x) p = Some n -> markok (cw (gm x)) n;
  o_mlive : forall p q c, heap (gm x) p = Some (NInner (IAbort q c)) -> is_remove (NInner c) = false
}.

Lemma pub_nid w i : wok w -> pub w i -> i < nid (wm w).
Proof.
  intros Hw Hp. destruct (k_pub _ Hw _ Hp) as (n & Hn & _). apply node_of_get in Hn as (p & Hg). apply get_tab in Hg as [Ht _].
  apply (b_tab _ (k_bound _ Hw)) in Ht. tauto.
Qed.
Lemma node_range w n : bodyok w n -> range_ok (nlow n) (nhigh n).
Proof.
  destruct n as [c|c]; simpl; [apply leaf_range|]. destruct c; try (intros [H _]; apply (iwf_range _ _ H)); simpl.
  intros [[H _] _]. apply (iwf_range _ _ H).
Qed.
Lemma kid_ref n d : kid n d -> nref n d.
Proof. destruct n as [c|c]; simpl; auto. intros [->|[s H]]; [apply lid_refs|eapply seps_refs; eauto]. Qed.
Lemma kid_body w n d : bodyok w n -> kid n d -> exists c, innerok w c /\ ilow c = nlow n /\ ihigh c = nhigh n /\ (d = ilid c \/ exists s, seps c s d).
Proof.
  destruct n as [c|c]; simpl; [contradiction|]. intros Hb Hk.
  destruct c as [| | | |i c| |p c]; try (eexists; split; [exact Hb|]; auto; fail). exists c; simpl in *; tauto.
Qed.
Lemma nref_pub w n d : bodyok w n -> nref n d -> pub w d.
Proof. destruct n as [c|c]; simpl; [contradiction|]. destruct c; simpl; try (intros [_ Hr] Hd; apply Hr; exact Hd). intros [[_ Hr] _] Hd. apply Hr. exact Hd. Qed.
(** The low key of a child lies in the range of the page. *)
Lemma kid_range w n d k : bodyok w n -> kid n d -> lo (wm w) d = Some k -> above (nlow n) k /\ below (nhigh n) k.
Proof.
  intros Hb Hk Hl. destruct (kid_body _ _ _ Hb Hk) as (c & [Hw _] & E1 & E2 & Hd). pose proof (iwf_range _ _ Hw) as Hr. rewrite <- E1, <- E2.
  destruct Hd as [->|[s Hs]].
  - rewrite (iwf_lid _ _ Hw) in Hl. rewrite Hl in *. destruct (ihigh c) as [[h j]|]; simpl in *; split; auto; order.
  - destruct (seps_range _ _ Hw _ _ Hs) as (H1 & H2 & H3). assert (s = k) as -> by congruence. split; auto. destruct (ilow c); simpl in *; auto. order.
Qed.
Lemma bef_out a b k : bef a b -> below (nhigh a) k -> above (nlow b) k -> False.
Proof. unfold bef. destruct (nhigh a) as [[h j]|], (nlow b); simpl; try tauto. intros; order. Qed.
Lemma same_page x i j a b k : gok x -> kept (gw x) i -> kept (gw x) j -> lev x i = lev x j -> node_of (gm x) i = Some a -> node_of (gm x) j = Some b ->
  above (nlow a) k -> below (nhigh a) k -> above (nlow b) k -> below (nhigh b) k -> i = j.
Proof.
  intros H Hi Hj El Ha Hb A1 A2 B1 B2. destruct (o_part _ H _ _ _ _ Hi Hj El Ha Hb) as [E|[E|E]]; auto; destruct (bef_out _ _ _ E A2 B1) || destruct (bef_out _ _ _ E B2 A1).
Qed.
Lemma nx_inj x i j d : gok x -> kept (gw x) i -> kept (gw x) j -> nx (gm x) i d -> nx (gm x) j d -> i = j.
Proof.
  intros H Hi Hj Ni Nj. pose proof (o_lnx _ H _ _ (proj1 Hi) Ni) as Li. pose proof (o_lnx _ H _ _ (proj1 Hj) Nj) as Lj.
  destruct Ni as (a & h & Ha & Ea), Nj as (b & h' & Hb & Eb). pose proof (o_ok _ H) as Hok.
  destruct (k_pub _ Hok _ (proj1 Hi)) as (a' & Ha' & Ba & Na). destruct (k_pub _ Hok _ (proj1 Hj)) as (b' & Hb' & Bb & Nb). fold (gm x) in *.
  rewrite Ha in Ha'. injection Ha' as <-. rewrite Hb in Hb'. injection Hb' as <-.
  destruct (Na _ _ Ea) as (_ & La & _), (Nb _ _ Eb) as (_ & Lb & _). assert (h' = h) as -> by congruence.
  apply node_range in Ba, Bb. rewrite Ea in Ba. rewrite Eb in Bb.
  destruct (o_part _ H i j a b) as [E|[E|E]]; auto; [congruence| |]; exfalso; unfold bef in E.
  - rewrite Ea in E. destruct (nlow b); simpl in *; [order|contradiction].
  - rewrite Eb in E. destruct (nlow a); simpl in *; [order|contradiction].
Qed.
Lemma absorbs_remove n d rn : absorbs n d rn -> is_remove rn = true.
Proof. destruct n as [[]|[]], rn as [[]|[]]; simpl; tauto. Qed.
Lemma absorbs_merges n d rn : absorbs n d rn -> merges n d.
Proof. destruct n as [[]|[]], rn as [[]|[]]; simpl; tauto. Qed.
Lemma live_kept x i n : gok x -> pub (gw x) i -> node_of (gm x) i = Some n -> is_remove n = false -> kept (gw x) i.
Proof.
  intros H Hp Hn Hr. split; auto. intros (p & nm & Hm & Hd). destruct (o_gone _ H _ _ _ Hm Hd) as (q & rn & _ & Hg & Ha).
  apply absorbs_remove in Ha. unfold node_of in Hn. rewrite Hg in Hn. simpl in Hn. congruence.
Qed.

(** * What a thread may rely on *)
Definition ver (x : gst) (i : nat) (p : N) : Prop := tab (gm x) i = Some p \/ (exists q, blocked (gm x) i q p) \/ stale (gl x) p.
Definition late (x : gst) (d : nat) (p : N) : Prop := cut (gm x) d -> stale (gl x) p.
Record gle (x x' : gst) : Prop := {
  e_le : le (gw x) (gw x');
  e_nid : nid (gm x) <= nid (gm x');
  e_lev : forall i, i < nid (gm x) -> lev x' i = lev x i;
  e_ver : forall i p, ver x i p -> ver x' i p;
  e_late : forall i p n d k, ver x i p -> pub (gw x) i -> pub (gw x) d -> heap (gm x) p = Some n -> live n -> lev x i = S (lev x d) ->
     lo (gm x) d = Some k -> above (nlow n) k -> below (nhigh n) k -> late x d p -> late x' d p
}.
Lemma gle_refl x : gle x x. Proof. constructor; auto. apply le_refl. Qed.
Lemma gle_trans a b c : gok a -> gle a b -> gle b c -> gle a c.
Proof.
  intros Ha [A1 A2 A3 A4 A5] [B1 B2 B3 B4 B5]. constructor.
  - eapply le_trans; eauto.
  - lia.
  - intros i Hi. rewrite B3 by lia. auto.
  - auto.
  - intros i p n d k H1 H2 H3 H4 H5 H6 H7 H8 H9 H10. pose proof (o_ok _ Ha) as Hok. pose proof (pub_nid _ _ Hok H2). pose proof (pub_nid _ _ Hok H3).
    apply (B5 i p n d k); auto; try (apply A1; auto; fail).
    + unfold gm in *. rewrite !A3 by auto. auto.
    + unfold gm. rewrite (le_lo (gw a) (gw b)); auto.
    + eapply A5; eauto.
Qed.

(** * Steps *)
Lemma stab (A C : Prop) : C \/ ~ C -> ~ ~ A -> (A -> C) -> C. Proof. tauto. Qed.
Lemma bef_dec a b : bef a b \/ ~ bef a b.
Proof. unfold bef. destruct (nhigh a) as [[h j]|], (nlow b); auto. destruct (klt k h); [right; discriminate|auto]. Qed.
Lemma part_dec (i j : nat) a b : (i = j \/ bef a b \/ bef b a) \/ ~ (i = j \/ bef a b \/ bef b a).
Proof. destruct (Nat.eq_dec i j), (bef_dec a b), (bef_dec b a); tauto. Qed.
Lemma nat_dec (a b : nat) : a = b \/ a <> b. Proof. destruct (Nat.eq_dec a b); auto. Qed.
Lemma le_dec' (a b : nat) : a <= b \/ ~ a <= b. Proof. destruct (Compare_dec.le_dec a b); auto. Qed.

Definition holds (own : option (nat * node)) (x : gst) : Prop :=
  match own with None => True | Some (s, ns) => ~ pub (gw x) s /\ s < nid (gm x) /\ exists p, get (gm x) s = Some (p, ns) end.
(** What an update of page [i] from [no] to [n] may do to the links to the
    right neighbour. *)
Inductive link (x : gst) (own : option (nat * node)) (i : nat) (no n : node) : Prop :=
| L_keep : own = None -> nhigh n = nhigh no -> (forall d, ~ merges n d) -> link x own i no n
| L_split k s ns : own = Some (s, ns) -> nhigh n = Some (k, s) -> nhigh ns = nhigh no -> lev x s = lev x i ->
    (forall d, ~ merges n d) -> (forall d, ~ cuts n d) -> (forall d, nref ns d -> nref no d) -> (forall d, kid ns d -> kid no d) -> link x own i no n
| L_merge mk d q rn : own = None -> nhigh no = Some (mk, d) -> get (gm x) d = Some (q, rn) -> absorbs n d rn -> nhigh n = nhigh rn -> link x own i no n.
Record kind (x : gst) (own : option (nat * node)) (i : nat) (no n : node) : Prop := {
  d_link : link x own i no n;
  d_ref : forall d, nref n d -> nref no d \/ lev x i = S (lev x d);
  d_kid : forall d, kid n d -> ~ cut (gm x) d /\ ~ cuts n d;
  d_cut : forall d, cuts n d -> merged (gm x) d /\ kid no d /\ exists k, lo (gm x) d = Some k
}.
Lemma absorbs_fun n d rn e : absorbs n d rn -> merges n e -> e = d.
Proof. destruct n as [[]|[]], rn as [[]|[]]; simpl; try tauto; intros [-> _] ->; auto. Qed.

Section CasStep.
Variables (x : gst) (own : option (nat * node)) (i : nat) (o : N) (no n : node) (w' : world) (L' : log).
Hypothesis H : gok x.
Hypothesis Hpi : pub (gw x) i.
Hypothesis Hti : tab (gm x) i = Some o.
Hypothesis Hho : heap (gm x) o = Some no.
Hypothesis Hlv : live no.
Hypothesis HK : kind x own i no n.
Hypothesis Hown : holds own x.
Hypothesis Em : wm w' = cas_mem (gm x) i n.
Hypothesis Hgu : guar (option_map fst own) (gw x) w'.
Hypothesis Hmk : markok (cw (gm x)) n.
Hypothesis Hmark : forall q c, n = NInner (IAbort q c) -> q = o.
Hypothesis Hst : forall p, stale (gl x) p -> stale L' p.
Hypothesis Hso : unmarked n -> stale L' o.
Hypothesis Hcur : forall j p, tab (wm w') j = Some p -> ~ stale L' p.
Let x' := {| gw := w'; lev := lev x; gl := L' |}.

Let Hok : wok (gw x) := o_ok _ H.
Let Hup : upd1 (gm x) (wm w') i (nptr (gm x)) n.
Proof. rewrite Em. apply cas_upd1; [apply Hok|apply (pub_nid _ _ Hok Hpi)]. Qed.
Let Hgi : get (gm x) i = Some (o, no). Proof. apply get_intro; auto. Qed.
Let Hni : node_of (gm x) i = Some no. Proof. apply node_of_get. eauto. Qed.
Let Hki : kept (gw x) i. Proof. eapply live_kept; eauto. apply Hlv. Qed.
Let Hn' : node_of (wm w') i = Some n. Proof. eapply upd1_node; eauto. Qed.
Let Hlow : nlow n = nlow no.
Proof.
  destruct (l_node _ _ (g_le _ _ _ Hgu) _ _ _ Hpi Hgi) as (p1 & n1 & G1 & _ & E & _).
  pose proof (proj2 (node_of_get (wm w') i n1) (ex_intro _ _ G1)) as E1. rewrite Hn' in E1. injection E1 as ->. auto.
Qed.
Let Hheap : forall p y, heap (gm x) p = Some y -> heap (wm w') p = Some y. Proof. intros p y Hy. apply (l_heap _ _ (g_le _ _ _ Hgu)). exact Hy. Qed.
Let Hheap' : forall p y, heap (wm w') p = Some y -> heap (gm x) p = Some y \/ (p = nptr (gm x) /\ y = n).
Proof.
  intros p y. rewrite Em. simpl. destruct (N.eq_dec p (nptr (gm x))) as [->|Hne]; [rewrite pfset_eq; intros E; injection E; auto|rewrite pfset_ne; auto].
Qed.
Let Hnew : heap (wm w') (nptr (gm x)) = Some n. Proof. rewrite Em. simpl. apply pfset_eq. Qed.
Let Hmg : forall d, merged (wm w') d -> merged (gm x) d \/ merges n d.
Proof. intros d (p & y & Hp & Hd). destruct (Hheap' _ _ Hp) as [Hy|[-> ->]]; [left; exists p, y|]; auto. Qed.
Let Hmg2 : forall d, merged (gm x) d -> merged (wm w') d. Proof. intros d (p & y & Hp & Hd). exists p, y. auto. Qed.
Let Hct : forall d, cut (wm w') d -> cut (gm x) d \/ cuts n d.
Proof. intros d (p & y & Hp & Hd). destruct (Hheap' _ _ Hp) as [Hy|[-> ->]]; [left; exists p, y|]; auto. Qed.
Let Hnid : nid (wm w') = nid (gm x). Proof. rewrite Em. auto. Qed.
Let Hold : forall j, pub w' j -> ~ ~ (pub (gw x) j \/ option_map fst own = Some j).
Proof.
  intros j Hj Hc. destruct (g_keep _ _ _ Hgu j) as [Hnp _]; try tauto. apply (pub_nid _ _ (g_ok _ _ _ Hgu)) in Hj. rewrite Hnid in Hj. exact Hj.
Qed.
Let Hoth : forall j, j <> i -> node_of (wm w') j = node_of (gm x) j. Proof. intros j Hj. eapply upd1_other; eauto. Qed.
Let Hgone : forall j q rn, get (gm x) j = Some (q, rn) -> is_remove rn = true -> get (wm w') j = Some (q, rn) /\ j <> i.
Proof.
  intros j q rn Hg Hr. assert (j <> i) by (intros ->; rewrite Hgi in Hg; injection Hg as -> ->; destruct Hlv; congruence).
  split; auto. rewrite (u_other _ _ _ _ _ Hup); auto.
Qed.
(** The pages after the step. *)
Let Hsrc : forall j b, pub w' j -> ~ merged (wm w') j -> node_of (wm w') j = Some b ->
  ~ ~ ((j = i /\ b = n) \/ (j <> i /\ kept (gw x) j /\ node_of (gm x) j = Some b) \/ (j <> i /\ exists k, own = Some (j, b) /\ nhigh n = Some (k, j) /\ nlow b = Some k)).
Proof.
  intros j b Hj Hm Hb Hc. apply (Hold j Hj). intros [Hp|Ho]; apply Hc.
  - destruct (Nat.eq_dec j i) as [->|Hne]; [left; split; auto; congruence|]. right. left. split; auto. split; [split; auto|]. rewrite <- Hoth; auto.
  - right. right. destruct (d_link _ _ _ _ _ HK) as [E|k s ns E E1|? ? ? ? E]; rewrite E in Ho, Hown; simpl in Ho; try discriminate. injection Ho as ->.
    destruct Hown as (Hnp & _ & p & Hgs). assert (Hne : j <> i) by (intros ->; auto). split; auto. exists k. rewrite Hoth in Hb by auto.
    assert (b = ns) as -> by (apply node_of_get in Hb as (q & Hq); congruence). split; auto. split; auto.
    destruct (k_pub _ (g_ok _ _ _ Hgu) i) as (n1 & Hn1 & _ & Hx1); [apply (l_pub _ _ (g_le _ _ _ Hgu)); auto|]. rewrite Hn' in Hn1. injection Hn1 as <-.
    destruct (Hx1 _ _ E1) as (_ & El & _). unfold lo in El. rewrite Hoth in El by auto. rewrite Hb in El. exact El.
Qed.
Let Hrange : forall j b, pub w' j -> node_of (wm w') j = Some b -> range_ok (nlow b) (nhigh b).
Proof. intros j b Hj Hb. destruct (k_pub _ (g_ok _ _ _ Hgu) _ Hj) as (b' & Hb' & Hbo & _). rewrite Hb in Hb'. injection Hb' as <-. eapply node_range; eauto. Qed.
Let Hpi' : pub w' i. Proof. apply (l_pub _ _ (g_le _ _ _ Hgu)). auto. Qed.
Let Hnxi : forall mk d, nhigh no = Some (mk, d) -> nx (gm x) i d. Proof. intros mk d E. exists no, mk. auto. Qed.
Let Hnext : forall mk d, nhigh no = Some (mk, d) -> pub (gw x) d /\ ~ merged (gm x) d /\ lo (gm x) d = Some mk /\ lev x d = lev x i.
Proof.
  intros mk d E. destruct (k_pub _ Hok _ Hpi) as (y & Hy & _ & Hx). fold (gm x) in Hy. rewrite Hni in Hy. injection Hy as <-. destruct (Hx _ _ E) as (A1 & A2 & _).
  split; auto. split; [eapply o_next; eauto|]. split; auto. eapply o_lnx; eauto.
Qed.

Lemma cas_part : forall j1 j2 a b, kept w' j1 -> kept w' j2 -> lev x j1 = lev x j2 -> node_of (wm w') j1 = Some a -> node_of (wm w') j2 = Some b -> j1 = j2 \/ bef a b \/ bef b a.
Proof.
  assert (Hone : forall j b, j <> i -> kept (gw x) j -> ~ merged (wm w') j -> node_of (gm x) j = Some b -> lev x j = lev x i -> bef n b \/ bef b n).
  { intros j b Hne Hj Hm Hb El. pose proof (o_part _ H i j no b Hki Hj (eq_sym El) Hni Hb) as Hp. destruct Hp as [Hp|Hp]; [congruence|].
    assert (E2 : bef b no -> bef b n) by (unfold bef; rewrite Hlow; auto).
    destruct (d_link _ _ _ _ _ HK) as [E E1|k s ns E E1 E3|mk d q rn E E1 Hg Ha Eh].
    - destruct Hp as [Hp|Hp]; auto. left. unfold bef in *. rewrite E1. auto.
    - destruct Hp as [Hp|Hp]; auto. left. unfold bef in *. rewrite E in Hown. destruct Hown as (Hnp & Hlt & p & Hgs).
      assert (Hs : pub w' s /\ lo (wm w') s = Some k).
      { destruct (k_pub _ (g_ok _ _ _ Hgu) i Hpi') as (n1 & Hn1 & _ & Hx1). rewrite Hn' in Hn1. injection Hn1 as <-. destruct (Hx1 _ _ E1) as (A1 & A2 & _). auto. }
      assert (Hsi : s <> i) by (intros ->; auto). assert (Hns : node_of (wm w') s = Some ns) by (rewrite Hoth by auto; apply node_of_get; eauto).
      pose proof (Hrange _ _ (proj1 Hs) Hns) as Hr. rewrite (lo_node _ _ _ Hns) in Hs. destruct Hs as [_ Hs]. rewrite Hs, E3 in Hr. rewrite E1.
      destruct (nhigh no) as [[h e]|]; [|contradiction]. destruct (nlow b); [|contradiction]. simpl in Hr. order.
    - destruct (Hnext _ _ E1) as (Hpd & Hmd & Hld & Hlvd). assert (Hnd : node_of (gm x) d = Some rn) by (apply node_of_get; eauto).
      assert (Hjd : j <> d). { intros ->. apply Hm. exists (nptr (gm x)), n. split; auto. eapply absorbs_merges; eauto. }
      destruct (o_part _ H d j rn b) as [F|F]; auto; [split; auto|congruence|congruence|].
      destruct Hp as [Hp|Hp]; auto. destruct F as [F|F]; [left; unfold bef in *; rewrite Eh; auto|]. exfalso.
      rewrite (lo_node _ _ _ Hnd) in Hld. unfold bef in Hp, F. rewrite E1 in Hp. rewrite Hld in F.
      assert (Hr : range_ok (nlow b) (nhigh b)) by (apply (Hrange j); [apply (l_pub _ _ (g_le _ _ _ Hgu)), Hj|rewrite Hoth; auto]).
      destruct (nhigh b) as [[h e]|]; [|contradiction]. destruct (nlow b); [|contradiction]. simpl in Hr. order. }
  assert (Htwo : forall j b s ns k, j <> i -> kept (gw x) j -> node_of (gm x) j = Some b -> lev x j = lev x i -> own = Some (s, ns) -> nhigh n = Some (k, s) -> nlow ns = Some k -> bef ns b \/ bef b ns).
  { intros j b s ns k Hne Hj Hb El Eo E1 El'. pose proof (o_part _ H i j no b Hki Hj (eq_sym El) Hni Hb) as Hp. destruct Hp as [Hp|Hp]; [congruence|].
    destruct (d_link _ _ _ _ _ HK) as [E|k1 s1 ns1 E E1' E3|? ? ? ? E]; try congruence. assert (ns1 = ns) as -> by congruence.
    destruct Hp as [Hp|Hp]; [left; unfold bef in *; rewrite E3; auto|right]. unfold bef in *. rewrite El'.
    pose proof (Hrange _ _ Hpi' Hn') as Hr. rewrite Hlow, E1 in Hr. destruct (nhigh b) as [[h e]|]; [|contradiction]. destruct (nlow no); [|contradiction]. simpl in Hr. order. }
  intros j1 j2 a b [Hp1 Hm1] [Hp2 Hm2] El Ha Hb. apply (stab _ _ (part_dec j1 j2 a b) (Hsrc _ _ Hp1 Hm1 Ha)). intros S1. apply (stab _ _ (part_dec j1 j2 a b) (Hsrc _ _ Hp2 Hm2 Hb)). intros S2.
  assert (Hls : forall s ns k, own = Some (s, ns) -> nhigh n = Some (k, s) -> lev x s = lev x i).
  { intros s ns k Eo E1. destruct (d_link _ _ _ _ _ HK) as [E|k1 s1 ns1 E E1' E3 E4|? ? ? ? E]; congruence. }
  assert (Hself : forall s ns k, own = Some (s, ns) -> nhigh n = Some (k, s) -> nlow ns = Some k -> bef n ns).
  { intros s ns k Eo E1 E2. unfold bef. rewrite E1, E2. order. }
  destruct S1 as [[-> ->]|[(N1 & K1 & A1)|(N1 & k1 & O1 & H1 & L1)]], S2 as [[-> ->]|[(N2 & K2 & A2)|(N2 & k2 & O2 & H2 & L2)]]; auto.
  - right. eapply Hone; eauto.
  - right. left. eapply Hself; eauto.
  - right. apply or_comm. eapply Hone; eauto.
  - eapply o_part; eauto.
  - right. apply or_comm. pose proof (Hls _ _ _ O2 H2). apply (Htwo j1 a j2 b k2); auto. congruence.
  - right. right. eapply Hself; eauto.
  - right. pose proof (Hls _ _ _ O1 H1). apply (Htwo j2 b j1 a k1); auto. congruence.
  - left. congruence.
Qed.
Lemma cas_next : forall j d, kept w' j -> nx (wm w') j d -> ~ merged (wm w') d.
Proof.
  intros j d [Hp Hm] (b & h & Hb & Eh) Hd. apply (Hsrc _ _ Hp Hm Hb). intros S.
  assert (Hone : forall e, nx (gm x) i e -> e = d -> merges n d -> False).
  { intros e Hnx -> Hmd. destruct (d_link _ _ _ _ _ HK) as [_ _ E|? ? ? _ _ _ _ E|mk d' q rn E0 E1 Hg Ha Ehn]; try (eapply E; eauto; fail).
    pose proof (absorbs_fun _ _ _ _ Ha Hmd) as ->. destruct S as [[-> ->]|[(N1 & K1 & A1)|(N1 & k1 & O1 & H1 & L1)]].
    - destruct (Hnext _ _ E1) as (Hpd & _ & Hld & _). destruct (k_pub _ Hok _ Hpd) as (r1 & Hr1 & Hb1 & Hx1). fold (gm x) in *. assert (Hnd : node_of (gm x) d' = Some rn) by (apply node_of_get; eauto).
      rewrite Hnd in Hr1. injection Hr1 as <-. rewrite Ehn in Eh. destruct (Hx1 _ _ Eh) as (_ & El & _). fold (gm x) in El. rewrite (lo_node _ _ _ Hnd) in El, Hld. apply node_range in Hb1. rewrite El, Eh in Hb1. simpl in Hb1. order.
    - apply N1. eapply nx_inj; eauto. exists b, h. auto.
    - congruence. }
  destruct (Hmg _ Hd) as [Hd'|Hd'].
  - destruct S as [[-> ->]|[(N1 & K1 & A1)|(N1 & k1 & O1 & H1 & L1)]].
    + destruct (d_link _ _ _ _ _ HK) as [_ E _|k s ns E E1|mk d' q rn _ E1 Hg Ha Ehn].
      * eapply (o_next _ H i d); eauto. rewrite E in Eh. exists no, h. auto.
      * rewrite E in Hown. destruct Hown as (Hnp & _). assert (s = d) as -> by congruence. apply Hnp. destruct Hd' as (p & y & Hp' & Hy). destruct (o_gone _ H _ _ _ Hp' Hy) as (? & ? & ? & _). auto.
      * destruct (Hnext _ _ E1) as (Hpd & Hmd & _). eapply (o_next _ H d' d); eauto; [split; auto|]. exists rn, h. split; [apply node_of_get; eauto|congruence].
    + eapply (o_next _ H j d); eauto. exists b, h. auto.
    + destruct (d_link _ _ _ _ _ HK) as [E|k s ns E E1 E3|? ? ? ? E]; try congruence. assert (ns = b) as -> by congruence. eapply (o_next _ H i d); eauto. exists no, h. split; auto. congruence.
  - destruct (d_link _ _ _ _ _ HK) as [_ _ E|? ? ? _ _ _ _ E|mk d' q rn _ E1 Hg Ha Ehn]; try (eapply E; eauto; fail).
    eapply Hone; eauto. symmetry. eapply absorbs_fun; eauto.
Qed.
Lemma cas_gone : forall p y d, heap (wm w') p = Some y -> merges y d -> exists q rn, pub w' d /\ get (wm w') d = Some (q, rn) /\ absorbs y d rn.
Proof.
  intros p y d Hy Hd. destruct (Hheap' _ _ Hy) as [Hy'|[-> ->]].
  - destruct (o_gone _ H _ _ _ Hy' Hd) as (q & rn & A1 & A2 & A3). exists q, rn. split; [apply (l_pub _ _ (g_le _ _ _ Hgu)); auto|]. split; auto.
    apply (Hgone _ _ _ A2). eapply absorbs_remove; eauto.
  - destruct (d_link _ _ _ _ _ HK) as [_ _ E|? ? ? _ _ _ _ E|mk d' q rn E0 E1 Hg Ha Ehn]; try (exfalso; eapply E; eauto; fail).
    pose proof (absorbs_fun _ _ _ _ Ha Hd) as ->. destruct (Hnext _ _ E1) as (Hpd & _). exists q, rn. split; [apply (l_pub _ _ (g_le _ _ _ Hgu)); auto|]. split; auto.
    apply (Hgone _ _ _ Hg). eapply absorbs_remove; eauto.
Qed.
(** Links and references of any page after the step, kept or not. *)
Let Hsrc2 : forall j b, pub w' j -> node_of (wm w') j = Some b ->
  ~ ~ ((j = i /\ b = n) \/ (j <> i /\ pub (gw x) j /\ node_of (gm x) j = Some b) \/ (j <> i /\ own = Some (j, b))).
Proof.
  intros j b Hj Hb Hc. apply (Hold j Hj). intros [Hp|Ho]; apply Hc.
  - destruct (Nat.eq_dec j i) as [->|Hne]; [left; split; auto; congruence|]. right. left. split; auto. split; [auto|]. rewrite <- Hoth; auto.
  - right. right. destruct own as [[s ns]|]; simpl in Ho; try discriminate. injection Ho as ->.
    destruct Hown as (Hnp & _ & p & Hgs). assert (Hne : j <> i) by (intros ->; auto). split; auto. rewrite Hoth in Hb by auto.
    assert (b = ns) as -> by (apply node_of_get in Hb as (q & Hq); congruence). auto.
Qed.
Lemma cas_lnx : forall j d, pub w' j -> nx (wm w') j d -> lev x d = lev x j.
Proof.
  intros j d Hp (b & h & Hb & Eh). apply (stab _ _ (nat_dec _ _) (Hsrc2 _ _ Hp Hb)). intros [[-> ->]|[(N1 & K1 & A1)|(N1 & O1)]].
  - destruct (d_link _ _ _ _ _ HK) as [_ E _|k s ns E E1 _ El|mk d' q rn _ E1 Hg Ha Ehn].
    + eapply o_lnx; eauto. exists no, h. split; auto. congruence.
    + congruence.
    + destruct (Hnext _ _ E1) as (Hpd & _ & _ & El). rewrite <- El. eapply o_lnx; eauto. exists rn, h. split; [apply node_of_get; eauto|congruence].
  - eapply o_lnx; eauto. exists b, h. auto.
  - destruct (d_link _ _ _ _ _ HK) as [E|k s ns E E1 E3 El|? ? ? ? E]; try congruence. assert (ns = b) as -> by congruence. assert (s = j) as -> by congruence.
    rewrite El. eapply o_lnx; eauto. exists no, h. split; auto. congruence.
Qed.
Lemma cas_lref : forall j b d, pub w' j -> node_of (wm w') j = Some b -> nref b d -> lev x j = S (lev x d).
Proof.
  intros j b d Hp Hb Hd. apply (stab _ _ (nat_dec _ _) (Hsrc2 _ _ Hp Hb)). intros [[-> ->]|[(N1 & K1 & A1)|(N1 & O1)]].
  - destruct (d_ref _ _ _ _ _ HK _ Hd) as [Hr|Hr]; auto. eapply o_lref; eauto.
  - eapply o_lref; eauto.
  - destruct (d_link _ _ _ _ _ HK) as [E|k s ns E E1 E3 El _ _ Er|? ? ? ? E]; try congruence. assert (ns = b) as -> by congruence. assert (s = j) as -> by congruence.
    rewrite El. eapply o_lref; eauto.
Qed.
Let Hroot : root (wm w') = root (gm x). Proof. rewrite Em. auto. Qed.
Lemma cas_top : forall j, pub w' j -> lev x j <= lev x (root (wm w')).
Proof.
  intros j Hp. rewrite Hroot. apply (stab _ _ (le_dec' _ _) (Hold _ Hp)). intros [Hj|Hj]; [apply o_top; auto|].
  destruct (d_link _ _ _ _ _ HK) as [E|k s ns E E1 E3 El|? ? ? ? E]; rewrite E in Hj; try discriminate. injection Hj as <-. rewrite El. apply o_top; auto.
Qed.
Let Hcutn : forall d, cuts n d -> merged (gm x) d /\ kid no d /\ pub (gw x) d /\ lev x i = S (lev x d) /\ exists k, lo (gm x) d = Some k /\ above (nlow no) k /\ below (nhigh no) k.
Proof.
  intros d Hd. destruct (d_cut _ _ _ _ _ HK _ Hd) as (A1 & A2 & k & A3). split; auto. split; auto.
  split; [destruct A1 as (p & y & Hp' & Hy); destruct (o_gone _ H _ _ _ Hp' Hy) as (? & ? & ? & _); auto|]. split; [eapply o_lref; eauto; apply kid_ref; auto|].
  exists k. split; auto. destruct (k_pub _ Hok _ Hpi) as (y & Hy & Hb & _). fold (gm x) in Hy. rewrite Hni in Hy. injection Hy as <-. eapply kid_range; eauto.
Qed.
Lemma cas_kid : forall j b d, kept w' j -> node_of (wm w') j = Some b -> kid b d -> ~ cut (wm w') d.
Proof.
  intros j b d [Hp Hm] Hb Hd Hc. apply (Hsrc _ _ Hp Hm Hb). intros [[-> ->]|[(N1 & K1 & A1)|(N1 & k1 & O1 & H1 & L1)]].
  - destruct (d_kid _ _ _ _ _ HK _ Hd) as [C1 C2]. destruct (Hct _ Hc); auto.
  - destruct (Hct _ Hc) as [Hc'|Hc']; [eapply o_kid; eauto|]. apply N1. destruct (Hcutn _ Hc') as (_ & A2 & _ & El & k & Hl & R1 & R2).
    pose proof (o_lref _ H _ _ _ (proj1 K1) A1 (kid_ref _ _ Hd)) as El2. destruct (k_pub _ Hok _ (proj1 K1)) as (y & Hy & Hbo & _). fold (gm x) in Hy. rewrite A1 in Hy. injection Hy as <-.
    destruct (kid_range _ _ _ _ Hbo Hd Hl) as [R3 R4]. apply (same_page x j i b no k); auto. congruence.
  - destruct (d_link _ _ _ _ _ HK) as [E|k s ns E E1 E3 El _ Ec _ Ek|? ? ? ? E]; try congruence. assert (ns = b) as -> by congruence.
    destruct (Hct _ Hc) as [Hc'|Hc']; [|apply (Ec _ Hc')]. eapply (o_kid _ H i); eauto.
Qed.
Lemma cas_once : forall p q a b d, heap (wm w') p = Some a -> heap (wm w') q = Some b -> merges a d -> merges b d -> p = q.
Proof.
  assert (Hx : forall p a d, heap (gm x) p = Some a -> merges a d -> merges n d -> False).
  { intros p a d Hp Ha Hn. destruct (d_link _ _ _ _ _ HK) as [_ _ E|? ? ? _ _ _ _ E|mk d' q rn E0 E1 Hg Hab Ehn]; try (eapply E; eauto; fail).
    pose proof (absorbs_fun _ _ _ _ Hab Hn) as ->. apply (Hnext _ _ E1). exists p, a. auto. }
  intros p q a b d Hp Hq Ha Hb. destruct (Hheap' _ _ Hp) as [Hp'|[-> ->]], (Hheap' _ _ Hq) as [Hq'|[-> ->]]; auto.
  - eapply o_once; eauto.
  - destruct (Hx _ _ _ Hp' Ha Hb).
  - destruct (Hx _ _ _ Hq' Hb Ha).
Qed.
Lemma cas_one : forall p q a b d, heap (wm w') p = Some a -> heap (wm w') q = Some b -> cuts a d -> cuts b d -> p = q.
Proof.
  assert (Hx : forall p a d, heap (gm x) p = Some a -> cuts a d -> cuts n d -> False).
  { intros p a d Hp Ha Hn. destruct (d_cut _ _ _ _ _ HK _ Hn) as (_ & Hk & _). eapply (o_kid _ H i); eauto. exists p, a. auto. }
  intros p q a b d Hp Hq Ha Hb. destruct (Hheap' _ _ Hp) as [Hp'|[-> ->]], (Hheap' _ _ Hq) as [Hq'|[-> ->]]; auto.
  - eapply o_one; eauto.
  - destruct (Hx _ _ _ Hp' Ha Hb).
  - destruct (Hx _ _ _ Hq' Hb Ha).
Qed.
Lemma cas_gok : gok x'.
Proof.
  constructor; unfold x', gm; cbn [gw lev gl].
  - apply Hgu.
  - apply cas_part.
  - apply cas_next.
  - apply cas_gone.
  - apply cas_lnx.
  - apply cas_lref.
  - apply cas_top.
  - intros d Hd. apply Hmg2. destruct (Hct _ Hd) as [Hc|Hc]; [apply o_cut; auto|apply (Hcutn _ Hc)].
  - intros d Hd. rewrite Hroot. destruct (Hct _ Hd) as [Hc|Hc]; [apply o_cutlev; auto|]. destruct (Hcutn _ Hc) as (_ & _ & _ & El & _). pose proof (o_top _ H _ Hpi). lia.
  - apply cas_kid.
  - apply cas_once.
  - apply cas_one.
  - exact Hcur.
  - assert (Hcl : cle (cw (gm x)) (cw (wm w'))) by (intros p y Hy; apply Hheap; auto).
    intros p y Hy. eapply markok_le; [exact Hcl|]. destruct (Hheap' _ _ Hy) as [Hy'|[-> ->]]; auto. apply (o_mark _ H _ _ Hy').
  - intros p q c Hy. destruct (Hheap' _ _ Hy) as [Hy'|[-> Ey]]; [apply (o_mlive _ H _ _ _ Hy')|]. subst n. simpl in Hmk. destruct Hmk as [Hc _]. unfold cw in Hc.
    rewrite (Hmark _ _ eq_refl), Hho in Hc. injection Hc as ->. apply Hlv.
Qed.
Lemma cas_gle : gle x x'.
Proof.
  assert (Hver : forall j p, ver x j p -> ver x' j p).
  { intros j p [Ht|[[q [Hq1 [c Hq2]]]|Hs]].
    - destruct (Nat.eq_dec j i) as [->|Hne].
      + assert (p = o) as -> by congruence. assert (Hc : unmarked n \/ exists q c, n = NInner (IAbort q c)) by (destruct n as [|[]]; simpl; eauto).
        destruct Hc as [Hc|(q & c & E)]; [right; right; apply Hso; auto|]. right. left. exists (nptr (gm x)). rewrite (Hmark _ _ E) in E. split.
        * unfold x', gm; cbn [gw]. rewrite Em. simpl. apply fset_eq.
        * exists c. unfold x', gm; cbn [gw]. rewrite <- E. exact Hnew.
      + left. unfold x', gm; cbn [gw]. rewrite Em. simpl. rewrite fset_ne; auto.
    - assert (Hne : j <> i). { intros ->. assert (q = o) as -> by congruence. rewrite Hho in Hq2. injection Hq2 as ->. apply (proj1 Hlv). }
      right. left. exists q. split; [|exists c; apply Hheap; auto]. unfold x', gm; cbn [gw]. rewrite Em. simpl. rewrite fset_ne; auto.
    - right. right. apply Hst. auto. }
  constructor; unfold gm; cbn [gw lev gl]; auto.
  - apply Hgu.
  - unfold x'; cbn [gw]. rewrite Hnid. auto.
  - intros j p b d k Hv Hj Hd Hb Hl El Hlo Ha Hbe Hla Hc. destruct (Hct _ Hc) as [Hc'|Hc']; [apply Hst, Hla, Hc'|].
    destruct (Hcutn _ Hc') as (_ & _ & _ & El' & k' & Hl' & R1 & R2). assert (k' = k) as -> by (unfold gm in *; congruence).
    assert (Hun : unmarked n) by (destruct n as [|[]]; simpl in *; auto).
    destruct Hv as [Ht|[[q [Hq1 [c Hq2]]]|Hs]]; [| |apply Hst; auto].
    + assert (Hnj : node_of (gm x) j = Some b) by (apply node_of_get; exists p; apply get_intro; auto).
      assert (j = i) as -> by (apply (same_page x j i b no k); auto; [eapply live_kept; eauto; apply Hl|congruence]). assert (p = o) as -> by congruence. apply Hso; auto.
    + exfalso. pose proof (o_mark _ H _ _ Hq2) as Hm. simpl in Hm.
      assert (Hnj : node_of (gm x) j = Some (NInner (IAbort p c))) by (apply node_of_get; exists q; apply get_intro; auto).
      destruct Hm as [Hm _]. unfold cw in Hm. fold (gm x) in Hb. rewrite Hm in Hb. injection Hb as <-.
      assert (j = i) as -> by (apply (same_page x j i (NInner (IAbort p c)) no k); auto; [eapply live_kept; eauto|congruence]).
      rewrite Hni in Hnj. injection Hnj as ->. apply (proj1 Hlv).
Qed.
End CasStep.

(** Steps that publish nothing and post no update. *)
Record alike (b b' : node) : Prop := {
  q_low : nlow b' = nlow b; q_high : nhigh b' = nhigh b; q_rem : is_remove b' = is_remove b;
  q_kid : forall d, kid b' d -> kid b d; q_ref : forall d, nref b' d -> nref b d
}.
Lemma alike_refl b : alike b b. Proof. constructor; auto. Qed.
Lemma alike_bef a a' b b' : alike a a' -> alike b b' -> bef a b -> bef a' b'.
Proof. intros [A1 A2 _ _ _] [B1 B2 _ _ _]. unfold bef. rewrite A2, B1. auto. Qed.
Section QuietStep.
Variables (x : gst) (w' : world) (lev' : nat -> nat) (L' : log).
Hypothesis H : gok x.
Hypothesis Hw : wok w'.
Hypothesis Hle : le (gw x) w'.
Hypothesis Hheap : forall p y, heap (wm w') p = Some y -> heap (gm x) p = Some y \/ ((forall d, ~ merges y d) /\ (forall d, ~ cuts y d) /\ unmarked y).
Hypothesis Hpub : forall j, pub w' j -> ~ ~ pub (gw x) j.
Hypothesis Hnode : forall j b', pub (gw x) j -> node_of (wm w') j = Some b' -> exists b, node_of (gm x) j = Some b /\ alike b b'.
Hypothesis Hroot : root (wm w') = root (gm x).
Hypothesis Hlev : forall j, j < nid (gm x) -> lev' j = lev x j.
Hypothesis Hcur : forall j p, tab (wm w') j = Some p -> ~ stale L' p.
Let x' := {| gw := w'; lev := lev'; gl := L' |}.
Let Hok : wok (gw x) := o_ok _ H.
Let Hrt : pub (gw x) (root (gm x)). Proof. apply (k_root _ Hok). Qed.
Let Hmg : forall d, merged (wm w') d -> merged (gm x) d.
Proof. intros d (p & y & Hp & Hd). destruct (Hheap _ _ Hp) as [Hy|[Hy _]]; [exists p, y; auto|destruct (Hy _ Hd)]. Qed.
Let Hmg2 : forall d, merged (gm x) d -> merged (wm w') d.
Proof. intros d (p & y & Hp & Hd). exists p, y. split; auto. apply (l_heap _ _ Hle). auto. Qed.
Let Hct : forall d, cut (wm w') d -> cut (gm x) d.
Proof. intros d (p & y & Hp & Hd). destruct (Hheap _ _ Hp) as [Hy|[_ [Hy _]]]; [exists p, y; auto|destruct (Hy _ Hd)]. Qed.
Let Hl : forall j, pub (gw x) j -> lev' j = lev x j. Proof. intros j Hj. apply Hlev. apply pub_nid; auto. Qed.
Let Hkept : forall j, kept w' j -> ~ ~ kept (gw x) j.
Proof. intros j [Hj Hm] Hc. apply (Hpub _ Hj). intros Hp. apply Hc. split; auto. Qed.
Let Hnx : forall j d, pub (gw x) j -> nx (wm w') j d -> nx (gm x) j d.
Proof. intros j d Hj (b & h & Hb & Eh). destruct (Hnode _ _ Hj Hb) as (b1 & Hb1 & Hs). exists b1, h. split; auto. rewrite <- Eh. symmetry. apply Hs. Qed.
Let Hnxp : forall j d, pub (gw x) j -> nx (gm x) j d -> pub (gw x) d.
Proof. intros j d Hj (b & h & Hb & Eh). destruct (k_pub _ Hok _ Hj) as (y & Hy & _ & Hx). fold (gm x) in Hy. rewrite Hb in Hy. injection Hy as <-. apply (Hx _ _ Eh). Qed.
Let Hrefp : forall j b d, pub (gw x) j -> node_of (gm x) j = Some b -> nref b d -> pub (gw x) d.
Proof.
  intros j b d Hj Hb Hd. destruct (k_pub _ Hok _ Hj) as (y & Hy & Hbo & _). fold (gm x) in Hy. rewrite Hb in Hy. injection Hy as <-. eapply nref_pub; eauto.
Qed.
Lemma quiet_gok : gok x'.
Proof.
  constructor; unfold x', gm; cbn [gw lev gl].
  - exact Hw.
  - intros i j a b Hi Hj El Ha Hb. apply (stab _ _ (part_dec i j a b) (Hkept _ Hi)). intros Hi'. apply (stab _ _ (part_dec i j a b) (Hkept _ Hj)). intros Hj'.
    destruct (Hnode _ _ (proj1 Hi') Ha) as (a1 & Ha1 & Sa), (Hnode _ _ (proj1 Hj') Hb) as (b1 & Hb1 & Sb). rewrite (Hl _ (proj1 Hi')), (Hl _ (proj1 Hj')) in El.
    destruct (o_part _ H _ _ _ _ Hi' Hj' El Ha1 Hb1) as [E|[E|E]]; auto; right; [left|right]; eapply alike_bef; eauto.
  - intros i d Hi Hd Hm. apply (Hkept _ Hi). intros Hi'. eapply (o_next _ H i d); eauto. apply Hnx; auto. apply Hi'.
  - intros p y d Hy Hd. destruct (Hheap _ _ Hy) as [Hy'|[Hn _]]; [|destruct (Hn _ Hd)]. destruct (o_gone _ H _ _ _ Hy' Hd) as (q & rn & A1 & A2 & A3). exists q, rn.
    split; [apply (l_pub _ _ Hle); auto|]. split; auto. destruct (l_node _ _ Hle _ _ _ A1 A2) as (p1 & n1 & G1 & _ & _ & Hr). destruct (Hr (absorbs_remove _ _ _ A3)) as [-> ->]. auto.
  - intros i d Hi Hd. apply (stab _ _ (nat_dec _ _) (Hpub _ Hi)). intros Hi'. apply Hnx in Hd; auto. rewrite (Hl i), (Hl d); eauto. eapply o_lnx; eauto.
  - intros i b d Hi Hb Hd. apply (stab _ _ (nat_dec _ _) (Hpub _ Hi)). intros Hi'. destruct (Hnode _ _ Hi' Hb) as (b1 & Hb1 & Hs). apply Hs in Hd. rewrite (Hl i), (Hl d); eauto. eapply o_lref; eauto.
  - intros i Hi. apply (stab _ _ (le_dec' _ _) (Hpub _ Hi)). intros Hi'. rewrite Hroot, (Hl i), (Hl (root (gm x))); auto. apply o_top; auto.
  - intros d Hd. apply Hmg2, o_cut; auto.
  - intros d Hd. apply Hct in Hd. pose proof (o_cut _ H _ Hd) as (p & y & Hp & Hy). destruct (o_gone _ H _ _ _ Hp Hy) as (? & ? & Hpd & _).
    rewrite Hroot, (Hl d), (Hl (root (gm x))); auto. apply o_cutlev; auto.
  - intros i b d Hi Hb Hd Hc. apply (Hkept _ Hi). intros Hi'. destruct (Hnode _ _ (proj1 Hi') Hb) as (b1 & Hb1 & Hs). apply (o_kid _ H i b1 d); auto. apply Hs. auto.
  - intros p q a b d Hp Hq Ha Hb. destruct (Hheap _ _ Hp) as [Hp'|[Hn _]]; [|destruct (Hn _ Ha)]. destruct (Hheap _ _ Hq) as [Hq'|[Hn _]]; [|destruct (Hn _ Hb)]. eapply o_once; eauto.
  - intros p q a b d Hp Hq Ha Hb. destruct (Hheap _ _ Hp) as [Hp'|[_ [Hn _]]]; [|destruct (Hn _ Ha)]. destruct (Hheap _ _ Hq) as [Hq'|[_ [Hn _]]]; [|destruct (Hn _ Hb)]. eapply o_one; eauto.
  - exact Hcur.
  - intros p y Hy. assert (Hcl : cle (cw (gm x)) (cw (wm w'))) by (intros p1 y1 Hy1; apply (l_heap _ _ Hle); auto).
    destruct (Hheap _ _ Hy) as [Hy'|[_ [_ Hu]]]; [eapply markok_le; [exact Hcl|apply (o_mark _ H _ _ Hy')]|]. destruct y as [|[]]; simpl in *; auto. contradiction.
  - intros p q c Hy. destruct (Hheap _ _ Hy) as [Hy'|[_ [_ Hu]]]; [apply (o_mlive _ H _ _ _ Hy')|contradiction].
Qed.
Lemma quiet_gle : nid (gm x) <= nid (wm w') -> (forall j p, ver x j p -> ver x' j p) -> (forall p, stale (gl x) p -> stale L' p) -> gle x x'.
Proof.
  intros Hn Hv Hs. constructor; unfold x', gm; cbn [gw lev gl]; auto.
  intros j p b d k _ _ _ _ _ _ _ _ _ Hla Hc. apply Hs, Hla, Hct, Hc.
Qed.
End QuietStep.

(** RemoveAbortOnParent. *)
Lemma ptr_step x i p q w' L' : gok x -> blocked (gm x) i p q -> wm w' = ptr_mem (gm x) i q -> guar None (gw x) w' ->
  (forall a, stale (gl x) a -> stale L' a) -> stale L' p -> (forall j a, tab (wm w') j = Some a -> ~ stale L' a) ->
  gok {| gw := w'; lev := lev x; gl := L' |} /\ gle x {| gw := w'; lev := lev x; gl := L' |}.
Proof.
  intros H [Ht [c Hc]] Em Hgu Hst Hsp Hcur. pose proof (o_mark _ H _ _ Hc) as [Hq _]. unfold cw in Hq.
  assert (Hh : heap (wm w') = heap (gm x)) by (rewrite Em; auto).
  assert (Hi : forall p y, heap (wm w') p = Some y -> heap (gm x) p = Some y \/ ((forall d, ~ merges y d) /\ (forall d, ~ cuts y d) /\ unmarked y)) by (rewrite Hh; auto).
  assert (Hpub : forall j, pub w' j -> ~ ~ pub (gw x) j).
  { intros j Hj Hn. apply pub_nid in Hj as Hlt; [|apply Hgu]. destruct (g_keep _ _ _ Hgu j) as [Hnp _]; auto; [discriminate|]. rewrite Em in Hlt. exact Hlt. }
  assert (Hnode : forall j b', pub (gw x) j -> node_of (wm w') j = Some b' -> exists b, node_of (gm x) j = Some b /\ alike b b').
  { intros j b' Hj Hb. apply node_of_get in Hb as [a Hb]. apply get_tab in Hb as [Ha Hb]. rewrite Em in Ha, Hb. simpl in Ha, Hb. destruct (Nat.eq_dec j i) as [->|Hne].
    - rewrite fset_eq in Ha. injection Ha as <-. rewrite Hq in Hb. injection Hb as <-. exists (NInner (IAbort q c)).
      split; [apply node_of_get; exists p; apply get_intro; auto|]. constructor; simpl; auto. apply (o_mlive _ H _ _ _ Hc).
    - rewrite fset_ne in Ha by auto. exists b'. split; [apply node_of_get; exists a; apply get_intro; auto|apply alike_refl]. }
  split.
  - eapply quiet_gok; eauto; try apply Hgu. rewrite Em. auto.
  - eapply quiet_gle; eauto; try apply Hgu.
    + rewrite Em. auto.
    + intros j a [Hv|[[r [Hr1 [c' Hr2]]]|Hv]]; unfold ver, blocked, gm; cbn [gw gl]; rewrite Em; simpl; [| |auto].
      * destruct (Nat.eq_dec j i) as [->|Hne]; [|rewrite fset_ne by auto; auto]. assert (a = p) as -> by congruence. auto.
      * destruct (Nat.eq_dec j i) as [->|Hne]; [|right; left; exists r; rewrite fset_ne by auto; eauto]. left. rewrite fset_eq. assert (r = p) as -> by congruence. congruence.
Qed.
Definition put_lev (f : nat -> nat) (i l : nat) : nat -> nat := fun j => if j =? i then l else f j.
Lemma put_eq f i l : put_lev f i l i = l. Proof. unfold put_lev. rewrite Nat.eqb_refl. auto. Qed.
Lemma put_ne f i l j : j <> i -> put_lev f i l j = f j. Proof. unfold put_lev. intros E. apply Nat.eqb_neq in E. rewrite E. auto. Qed.
(** A new page, not yet published. *)
Lemma new_step x n w' l : gok x -> is_delta n = false -> wm w' = new_mem (gm x) n -> guar None (gw x) w' -> ~ pub w' (nid (gm x)) ->
  (forall j a, tab (wm w') j = Some a -> ~ stale (gl x) a) ->
  gok {| gw := w'; lev := put_lev (lev x) (nid (gm x)) l; gl := gl x |} /\ gle x {| gw := w'; lev := put_lev (lev x) (nid (gm x)) l; gl := gl x |} /\
  get (wm w') (nid (gm x)) = Some (nptr (gm x), n).
Proof.
  intros H Hd Em Hgu Hnp Hcur. pose proof (o_ok _ H) as Hok. pose proof (new_upd1 (gm x) n (k_bound _ Hok)) as Hup. rewrite <- Em in Hup.
  assert (Hi : forall p y, heap (wm w') p = Some y -> heap (gm x) p = Some y \/ ((forall d, ~ merges y d) /\ (forall d, ~ cuts y d) /\ unmarked y)).
  { intros p y. rewrite Em. simpl. destruct (N.eq_dec p (nptr (gm x))) as [->|Hne]; [|rewrite pfset_ne by auto; auto]. rewrite pfset_eq. intros E. injection E as <-.
    right. destruct n as [[]|[]]; try discriminate; simpl; tauto. }
  assert (Hpub : forall j, pub w' j -> ~ ~ pub (gw x) j).
  { intros j Hj Hn. apply pub_nid in Hj as Hlt; [|apply Hgu]. rewrite Em in Hlt. simpl in Hlt. assert (j <> nid (gm x)) by (intros ->; auto).
    destruct (g_keep _ _ _ Hgu j) as [Hnp' _]; auto; [discriminate|]. unfold gm in *. lia. }
  assert (Hnode : forall j b', pub (gw x) j -> node_of (wm w') j = Some b' -> exists b, node_of (gm x) j = Some b /\ alike b b').
  { intros j b' Hj Hb. exists b'. split; [|apply alike_refl]. apply (pub_nid _ _ Hok) in Hj. rewrite <- Hb. symmetry. eapply upd1_other; eauto. unfold gm. lia. }
  assert (Hlev : forall j, j < nid (gm x) -> put_lev (lev x) (nid (gm x)) l j = lev x j) by (intros j Hj; apply put_ne; lia).
  split; [|split].
  - eapply quiet_gok; eauto; try apply Hgu. rewrite Em. auto.
  - eapply quiet_gle; eauto; try apply Hgu.
    + rewrite Em. simpl. lia.
    + assert (Htab : forall j a, tab (gm x) j = Some a -> tab (wm w') j = Some a).
      { intros j a Ha. rewrite Em. simpl. rewrite fset_ne; auto. intros ->. apply (b_tab _ (k_bound _ Hok)) in Ha. unfold gm in *. lia. }
      assert (Hhp : forall p y, heap (gm x) p = Some y -> heap (wm w') p = Some y) by (intros; apply (l_heap _ _ (g_le _ _ _ Hgu)); auto).
      intros j a [Hv|[[r [Hr1 [c' Hr2]]]|Hv]]; unfold ver, blocked, gm; cbn [gw gl]; [left; apply Htab; auto|right; left; exists r; split; [apply Htab; auto|exists c'; apply Hhp; auto]|auto].
  - apply Hup.
Qed.
(** A new root. *)
Definition rootkind (x : gst) (own : option (nat * node)) (o r : nat) : Prop :=
  exists k sib, own = Some (r, NInner (IBase 0 None o [(kdef, o); (k, sib)] None)) /\ lev x r = S (lev x o) /\ lev x sib = lev x o.
Lemma root_step x own o r w' : gok x -> root (gm x) = o -> rootkind x own o r -> holds own x -> wm w' = root_mem (gm x) r -> guar (option_map fst own) (gw x) w' ->
  gok {| gw := w'; lev := lev x; gl := gl x |} /\ gle x {| gw := w'; lev := lev x; gl := gl x |}.
Proof.
  intros H Hr (k & sib & -> & El & Els) (Hnp & Hlt & pr & Hgr) Em Hgu. pose proof (o_ok _ H) as Hok. cbn [option_map fst] in Hgu.
  set (nr := NInner (IBase 0 None o [(kdef, o); (k, sib)] None)) in *.
  assert (Eg : forall j, get (wm w') j = get (gm x) j) by (intros; rewrite Em; auto). assert (En : forall j, node_of (wm w') j = node_of (gm x) j) by (intros; rewrite Em; auto).
  assert (Hnr : node_of (gm x) r = Some nr) by (apply node_of_get; eauto).
  assert (Eh : heap (wm w') = heap (gm x)) by (rewrite Em; auto).
  assert (Emg : forall d, merged (wm w') d <-> merged (gm x) d) by (intros; unfold merged; rewrite Eh; tauto).
  assert (Ect : forall d, cut (wm w') d <-> cut (gm x) d) by (intros; unfold cut; rewrite Eh; tauto).
  assert (Hold : forall j, pub w' j -> ~ ~ (pub (gw x) j \/ j = r)).
  { intros j Hj Hn. apply pub_nid in Hj as Hlt'; [|apply Hgu]. rewrite Em in Hlt'. destruct (g_keep _ _ _ Hgu j) as [Hnp' _]; auto. intros E. injection E as ->. tauto. }
  assert (Hkept : forall j, kept w' j -> ~ ~ (kept (gw x) j \/ j = r)).
  { intros j [Hj Hm] Hc. apply (Hold _ Hj). intros [Hp| ->]; auto. apply Hc. left. split; auto. intros Hm'. apply Hm, Emg, Hm'. }
  assert (Hto : forall j, pub (gw x) j -> lev x j < lev x r) by (intros j Hj; pose proof (o_top _ H _ Hj) as Hx; rewrite Hr in Hx; lia).
  assert (Hpo : pub (gw x) o) by (rewrite <- Hr; apply (k_root _ Hok)).
  assert (Hnref : forall d, nref nr d -> lev x d = lev x o) by (intros d Hd; simpl in Hd; destruct Hd as [->|[<-|[<-|[]]]]; auto).
  split.
  - constructor; unfold gm; cbn [gw lev gl].
    + apply Hgu.
    + intros i j a b Hi Hj E Ha Hb. rewrite En in Ha, Hb. apply (stab _ _ (part_dec i j a b) (Hkept _ Hi)). intros Hi'. apply (stab _ _ (part_dec i j a b) (Hkept _ Hj)). intros Hj'.
      destruct Hi' as [Hi'| ->], Hj' as [Hj'| ->]; auto; [eapply o_part; eauto| |]; [pose proof (Hto _ (proj1 Hi'))|pose proof (Hto _ (proj1 Hj'))]; lia.
    + intros i d Hi (b & h & Hb & E) Hm. apply Emg in Hm. rewrite En in Hb. apply (Hkept _ Hi). intros [Hi'| ->]; [eapply (o_next _ H i d); eauto; exists b, h; auto|]. rewrite Hnr in Hb. injection Hb as <-. discriminate.
    + intros p y d. rewrite Eh. intros Hp Hd. destruct (o_gone _ H _ _ _ Hp Hd) as (q & rn & A1 & A2 & A3). exists q, rn. split; [apply (l_pub _ _ (g_le _ _ _ Hgu)); auto|]. rewrite Eg. auto.
    + intros i d Hi (b & h & Hb & E). rewrite En in Hb. apply (stab _ _ (nat_dec _ _) (Hold _ Hi)). intros [Hi'| ->]; [eapply o_lnx; eauto; exists b, h; auto|]. rewrite Hnr in Hb. injection Hb as <-. discriminate.
    + intros i b d Hi Hb Hd. rewrite En in Hb. apply (stab _ _ (nat_dec _ _) (Hold _ Hi)). intros [Hi'| ->]; [eapply o_lref; eauto|]. rewrite Hnr in Hb. injection Hb as <-. rewrite (Hnref _ Hd). auto.
    + intros i Hi. rewrite Em. cbn [root root_mem]. apply (stab _ _ (le_dec' _ _) (Hold _ Hi)). intros [Hi'| ->]; auto. pose proof (Hto _ Hi'). lia.
    + intros d Hd. apply Emg, o_cut; auto. apply Ect; auto.
    + intros d Hd. apply Ect in Hd. rewrite Em. cbn [root root_mem]. pose proof (o_cutlev _ H _ Hd). rewrite Hr in *. lia.
    + intros i b d Hi Hb Hd Hc. apply Ect in Hc. rewrite En in Hb. apply (Hkept _ Hi). intros [Hi'| ->]; [eapply (o_kid _ H i); eauto|]. rewrite Hnr in Hb. injection Hb as <-.
      pose proof (o_cutlev _ H _ Hc) as Hx. rewrite (Hnref _ (kid_ref _ _ Hd)) in Hx. rewrite Hr in Hx. lia.
    + rewrite Eh. apply (o_once _ H).
    + rewrite Eh. apply (o_one _ H).
    + rewrite Em. apply (o_cur _ H).
    + unfold cw. rewrite Eh. apply (o_mark _ H).
    + rewrite Eh. apply (o_mlive _ H).
  - constructor; unfold gm; cbn [gw lev gl]; auto.
    + apply Hgu.
    + rewrite Em. auto.
    + intros i p Hv. unfold ver, blocked, gm in *. cbn [gw gl]. rewrite Em. exact Hv.
    + intros i p n d kk _ _ _ _ _ _ _ _ _ Hla Hc. apply Hla, Ect, Hc.
Qed.
End Links.
