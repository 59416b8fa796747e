(** Safety of the index operations, continued: traversals and the public
    operations. *)
From Coq Require Import List Arith Lia Bool ZArith.
From Verif Require Import Base Leaf LeafSpec LeafProofs LeafWeak LeafProofs2 Inner InnerSpec InnerProofs InnerProofs2 Tree TreeSpec TreeInv TreeSafe TreeProg TreeProg2 TreeProg3.
Import ListNotations.

Section TreeProg4.
Context {P : Params}.
Notation hist := (list world).

Ltac ext := match goal with
  | H : hext ?o ?a ?b, G : hgood ?a, S : snap_ok ?a ?s |- snap_ok ?b ?s => exact (snap_ext o a b s G H S)
  | H : hext ?o ?a ?b, G : hgood ?a, S : ctx_ok ?a ?s |- ctx_ok ?b ?s => exact (ctx_ext o a b s G H S)
  | H : hext ?o ?a ?b, G : hgood ?a, S : par_ok ?a ?l ?s |- par_ok ?b ?l ?s => exact (par_ext o a b l s G H S)
  end.

(** * Traversal.  [kr l k]: a page with low key [l] is not to the right of
    where [k] has to be looked up. *)
Section Nav.
Variable go : K -> K -> bool.
Variable nav : K -> ichain -> res nat.
Variable kr : option K -> K -> Prop.
Hypothesis kr_down : forall a b k, lole a b -> kr b k -> kr a k.
Hypothesis kr_none : forall k, kr None k.
Hypothesis kr_go : forall k h, go k h = true -> kr (Some h) k.
Hypothesis kr_nav : forall w c k i, innerok w c -> nav k c = Ok i -> kr (ilow c) k -> irefs c i /\ kr (lo (wm w) i) k.

Definition stops (x : ctx) : Prop :=
  match nhigh (s_node (cur x)) with Some (h, _) => go (key x) h = false | None => True end.
Definition here (x : ctx) (h : hist) : Prop :=
  ctx_ok h x /\ settled (s_node (cur x)) /\ kr (nlow (s_node (cur x))) (key x).
Lemma here_ext own h h' x : hgood h -> hext own h h' -> here x h -> here x h'.
Proof. intros Hg Hx (A & B & C). split; [ext|auto]. Qed.

Definition chained (x : ctx) (o : option ctx) (h : hist) : Prop :=
  match o with
  | None => True
  | Some x' => here x' h /\ key x' = key x /\ is_leaf (s_node (cur x')) = is_leaf (s_node (cur x)) /\ stops x'
  end.
Lemma sibling_chain_safe fuel : forall h x, hgood h -> here x h ->
  safe ND None (sibling_chain go fuel x) (chained x) h.
Proof.
  induction fuel as [|f IH]; intros h x Hg Hx; [exact I|]. cbn [sibling_chain].
  destruct (nhigh (s_node (cur x))) as [[hk n]|] eqn:Eh.
  2:{ apply safe_ret. intros h1 Hh1. split; [eapply here_ext; eauto|]. split; auto. split; auto. unfold stops. rewrite Eh. auto. }
  destruct (go (key x) hk) eqn:Ego.
  2:{ apply safe_ret. intros h1 Hh1. split; [eapply here_ext; eauto|]. split; auto. split; auto. unfold stops. rewrite Eh. auto. }
  destruct Hx as ([Hs Hp] & Hset & Hkr).
  destruct (s_next _ _ Hs _ _ Eh) as (N1 & N2 & _).
  pose proof (range_sabove _ _ _ (body_range _ _ (s_body _ _ Hs)) Eh) as Hsab.
  eapply safe_bind; [exact Hg|apply (jump_to_ok f n x h Hg N1)|].
  { rewrite N2. eapply par_move; [|exact Hp]. apply sabove_lole; auto. }
  intros o h1 Hh1 Ho. pose proof (x_good _ _ _ Hh1) as Hg1. destruct o as [x'|]; [|intros h2 _; exact I].
  destruct Ho as (O1 & O2 & O3 & O4 & O5).
  rewrite (le_lo _ _ _ (now_ok _ Hg) (x_le _ _ _ Hh1) N1), N2 in O4.
  eapply safe_mono; [| | |apply IH; [exact Hg1|]]; auto.
  - intros o h2. destruct o as [y|]; auto. intros (A & B & C & D). split; auto. split; [congruence|]. split; [congruence|auto].
  - split; auto. split; auto. rewrite O3. eapply kr_down; eauto.
Qed.

Definition naved (x : ctx) (o : option (nat * ctx)) (h : hist) : Prop :=
  match o with
  | None => True
  | Some (i, x') => here x' h /\ key x' = key x /\ is_leaf (s_node (cur x')) = false /\ pub (now h) i /\
      kr (lo (wm (now h)) i) (key x) /\ lole (nlow (s_node (cur x'))) (lo (wm (now h)) i)
  end.
Lemma nav_inner_safe fuel h x : hgood h -> here x h -> safe ND None (nav_inner go nav fuel x) (naved x) h.
Proof.
  intros Hg Hx. unfold nav_inner. eapply safe_bind; [exact Hg|apply sibling_chain_safe; auto|].
  intros o h1 Hh1 Ho. pose proof (x_good _ _ _ Hh1) as Hg1. destruct o as [x'|]; [|intros h2 _; exact I].
  destruct Ho as (O1 & O2 & O3 & O4). destruct (s_node (cur x')) as [|c] eqn:En; [exact I|].
  destruct (nav (key x') c) as [i|] eqn:Ei; [|exact I]. cbn [lift pbind]. apply safe_ret.
  intros h2 Hh2. apply (here_ext _ _ _ _ Hg1 Hh2) in O1. unfold naved. split; [exact O1|]. split; auto. rewrite En. split; auto.
  destruct O1 as ([Hs Hp] & Hset & Hkr). pose proof (s_body _ _ Hs) as Hb. rewrite En in *.
  pose proof (settled_body_inner _ _ Hb Hset) as Hi. destruct (kr_nav _ _ _ _ Hi Ei Hkr) as [R1 R2].
  destruct (proj2 Hi _ R1) as [R3 R4]. split; auto. rewrite <- O2. auto.
Qed.

Definition down (x : ctx) (o : option ctx) (h : hist) : Prop :=
  match o with None => True | Some y => here y h /\ key y = key x /\ is_leaf (s_node (cur y)) = true end.
Lemma descend_safe fuel : forall h x, hgood h -> here x h -> safe ND None (descend go nav fuel x) (down x) h.
Proof.
  induction fuel as [|f IH]; intros h x Hg Hx; [exact I|]. cbn [descend].
  eapply safe_bind; [exact Hg|apply nav_inner_safe; auto|].
  intros o h1 Hh1 Ho. pose proof (x_good _ _ _ Hh1) as Hg1. destruct o as [[i x']|]; [|intros h2 _; exact I].
  destruct Ho as (((O1 & O1') & O2 & O3) & O4 & O5 & O6 & O7 & O8).
  eapply safe_bind; [exact Hg1|apply load_node_safe; [exact Hg1|exact O6|]|].
  { cbn [par_ok]. auto. }
  intros o h2 Hh2 Hl. pose proof (x_good _ _ _ Hh2) as Hg2. destruct o as [y|]; [|intros h3 _; exact I].
  destruct Hl as (L1 & L2 & L3 & L4).
  assert (Hy : here y h2).
  { split; auto. split; auto. rewrite L3, O4. eapply kr_down; [exact L4|].
    rewrite (le_lo _ _ _ (now_ok _ Hg1) (x_le _ _ _ Hh2) O6). exact O7. }
  destruct (is_leaf (s_node (cur y))) eqn:Elf.
  - apply safe_ret. intros h3 Hh3. split; [eapply here_ext; eauto|]. split; [congruence|auto].
  - eapply safe_mono; [| | |apply IH; eauto]; auto.
    intros o h3. destruct o as [z|]; auto. intros (A & B & C). split; auto. split; [congruence|auto].
Qed.

Definition arrived (k : K) (x : ctx) (h : hist) : Prop :=
  here x h /\ key x = k /\ is_leaf (s_node (cur x)) = true /\ stops x.
Definition arrived' (k : K) (o : option ctx) (h : hist) : Prop :=
  match o with None => True | Some x => arrived k x h end.
Lemma attempt_safe fuel h k : hgood h -> safe ND None (attempt go nav fuel k) (arrived' k) h.
Proof.
  intros Hg. unfold attempt. cbn [safe]. intros h1 Hh1. pose proof (x_good _ _ _ Hh1) as Hg1.
  destruct (k_root _ (now_ok _ Hg1)) as [R1 R2].
  eapply safe_bind; [exact Hg1|apply load_node_safe; [exact Hg1|exact R1|exact I]|].
  intros o h2 Hh2 Hl. pose proof (x_good _ _ _ Hh2) as Hg2. destruct o as [x|]; [|intros h3 _; exact I].
  destruct Hl as (L1 & L2 & L3 & L4).
  rewrite (le_lo _ _ _ (now_ok _ Hg1) (x_le _ _ _ Hh2) R1), R2 in L4.
  assert (Hx : here x h2).
  { split; auto. split; auto. eapply kr_down; eauto. }
  eapply safe_bind; [exact Hg2|apply descend_safe; eauto|].
  intros o h3 Hh3 Hd. pose proof (x_good _ _ _ Hh3) as Hg3. destruct o as [y|]; [|intros h4 _; exact I].
  destruct Hd as (D1 & D2 & D3).
  eapply safe_mono; [| | |apply sibling_chain_safe; eauto]; auto.
  intros o h4. destruct o as [z|]; auto. intros (A & B & C & D). split; auto. split; [congruence|]. split; [congruence|auto].
Qed.
Lemma traverse_with_safe fuel : forall h k, hgood h -> safe ND None (traverse_with go nav fuel k) (arrived k) h.
Proof.
  induction fuel as [|f IH]; intros h k Hg; [exact I|]. cbn [traverse_with].
  eapply safe_bind; [exact Hg|apply attempt_safe; auto|].
  intros o h1 Hh1 Ho. pose proof (x_good _ _ _ Hh1) as Hg1. destruct o as [x|]; [|apply IH; auto].
  apply safe_ret. intros h2 Hh2. destruct Ho as (A & B). split; auto. eapply here_ext; eauto.
Qed.
End Nav.

Lemma above_down a b k : lole a b -> above b k -> above a k. Proof. apply lole_above. Qed.
Lemma above_none k : above None k. Proof. exact I. Qed.
Lemma above_go k h : kge k h = true -> above (Some h) k.
Proof. unfold kge. simpl. destruct (klt k h); auto. Qed.
Lemma above_nav w c k i : innerok w c -> inavigate k c = Ok i -> above (ilow c) k -> irefs c i /\ above (lo (wm w) i) k.
Proof.
  intros [A B] E Ha. split; [eapply inav_refs; exact E|].
  rewrite (inavigate_nav _ k c A) in E. destruct (nav_sound _ k c A Ha) as (j & Ej & Hj). congruence.
Qed.
Definition anywhere (_ : option K) (_ : K) : Prop := True.

(** * What an operation owes *)
(** It observed the index at a moment between its call and now. *)
Definition done (o : op) (r : resp) (h : hist) : Prop :=
  exists w, In w h /\ forall full, (full = true -> exact_at o (wm w)) ->
    effect full o (contents (wm w)) (contents (wm w)) r.
(** It changes the index in one step. *)
Definition act (o : op) (w w' : world) (r : resp) : Prop :=
  forall full, effect full o (contents (wm w)) (contents (wm w')) r.
Lemma done_ext own h h' o r : hext own h h' -> done o r h -> done o r h'.
Proof. intros [(l & ->) _ _ _] (w & A & B). exists w. split; auto. apply in_or_app; auto. Qed.
Lemma same_refl A : same A A.
Proof. intros k v; tauto. Qed.

(** The leaf found decides the pairs of its range, at the moment it was current. *)
Lemma leaf_decides_at h x c : hgood h -> snap_ok h (cur x) -> settled (s_node (cur x)) -> s_node (cur x) = NLeaf c ->
  exists w, In w h /\ leaf (wm w) (s_id (cur x)) c /\ lwfw c /\ reach (wm w) (s_id (cur x)) /\
    forall k v, in_range c k -> (contents (wm w) k v <-> lmem c k v).
Proof.
  intros Hg Hs Hset En. pose proof (s_was _ _ Hs) as Hw. rewrite En in *. destruct (Hw eq_refl) as (w & A & B & C).
  pose proof (proj2 Hg _ A) as Hok. exists w. split; auto.
  assert (Hl : leaf (wm w) (s_id (cur x)) c) by (apply node_of_get; eauto). split; auto.
  pose proof (s_body _ _ Hs) as Hb. rewrite En in Hb.
  split; [apply (settled_body_leaf (now h)); auto|].
  assert (Hr : reach (wm w) (s_id (cur x))) by (eapply (k_live _ Hok); eauto; apply (settled_live _ Hset)).
  split; [exact Hr|]. intros k v Hk. eapply contents_leaf; eauto.
Qed.
Lemma leaf_decides h x c : hgood h -> snap_ok h (cur x) -> settled (s_node (cur x)) -> s_node (cur x) = NLeaf c ->
  exists w, In w h /\ leaf (wm w) (s_id (cur x)) c /\ lwfw c /\
    forall k v, in_range c k -> (contents (wm w) k v <-> lmem c k v).
Proof. intros Hg Hs Hset En. destruct (leaf_decides_at h x c Hg Hs Hset En) as (w & A & B & C & _ & D). exists w. auto. Qed.
Lemma arrived_range k x h c : arrived kge above k x h -> s_node (cur x) = NLeaf c -> in_range c k.
Proof.
  intros ((_ & _ & A) & <- & _ & B) En. unfold stops in B. rewrite En in *. simpl in A, B. split; auto.
  destruct (lhigh c) as [[h0 ?]|]; simpl; auto. unfold kge in B. destruct (klt (key x) h0); auto.
Qed.

Lemma traverse_safe fuel h k : hgood h -> safe ND None (traverse fuel k) (arrived kge above k) h.
Proof.
  intros Hg. apply traverse_with_safe; auto; [apply above_down|apply above_none|apply above_go|apply above_nav].
Qed.
Lemma traverseBI_safe fuel h k : hgood h -> safe ND None (traverseBI fuel k) (arrived kgt anywhere k) h.
Proof.
  intros Hg. apply traverse_with_safe; auto; unfold anywhere; auto.
  intros w c k0 i Hi E _. split; auto. eapply inavBI_refs; eauto.
Qed.

(** * Insert and Delete *)
Lemma insert_safe fuel k v : forall h, hgood h ->
  safe (fun w w' b => act (OpIns k v) w w' (RBool b)) None (insert fuel k v) (fun b h' => done (OpIns k v) (RBool b) h') h.
Proof.
  induction fuel as [|f IH]; intros h Hg; [exact I|]. cbn [insert].
  eapply safe_bind; [exact Hg|apply traverse_safe; auto|].
  intros x h1 Hh1 Hx. pose proof (x_good _ _ _ Hh1) as Hg1.
  unfold leaf_of. destruct (s_node (cur x)) as [c|] eqn:En; [|exact I]. cbn [pbind].
  pose proof (arrived_range _ _ _ _ Hx En) as Hr. destruct Hx as (([Hs _] & Hset & _) & _).
  destruct (leaf_decides _ _ _ Hg1 Hs Hset En) as (w & W1 & W2 & W3 & W4).
  destruct (lcheckw_spec c k v W3 Hr) as (b & ix & Ec & Hb & Hpos). rewrite Ec. cbn [lift pbind fst snd].
  destruct b.
  - apply safe_ret. intros h2 Hh2. apply (done_ext _ _ _ _ _ Hh2). exists w. split; auto. intros full _.
    simpl. split; [apply W4; auto; tauto|apply same_refl].
  - cbn [safe]. intros h2 Hh2. cbn zeta. pose proof (x_good _ _ _ Hh2) as Hg2. split; [intros _; apply IH; auto|].
    intros Ht. pose proof (snap_ext _ _ _ _ Hg1 Hh2 Hs) as Hs2. split; [apply Hs2|]. exists (pub (now h2)).
    pose proof (cas_get _ _ Hs2 Ht) as Hget. rewrite En in Hget, Hset. pose proof (now_ok _ Hg2) as Hw.
    pose proof (s_pub _ _ Hs2) as Hp.
    assert (Hu : upd1 (wm (now h2)) (cas_mem (wm (now h2)) (s_id (cur x)) (NLeaf (LIns k v ix c)))
                 (s_id (cur x)) (nptr (wm (now h2))) (NLeaf (LIns k v ix c))).
    { apply cas_upd1; [apply Hw|apply pub_bound; auto]. }
    destruct (swap_leaf_ins _ _ _ _ _ _ _ _ _ Hw Hp Hget (settled_live _ Hset) Hu) as (A & B & C & D).
    { simpl. split; auto. split; auto. split; auto. intros Hm. apply Hb in Hm. discriminate. }
    split; [eapply upd_guar; eauto|]. right. exists true. split; auto. intros full. simpl. auto.
Qed.
Lemma delete_safe fuel k v : forall h, hgood h ->
  safe (fun w w' b => act (OpDel k v) w w' (RBool b)) None (delete fuel k v) (fun b h' => done (OpDel k v) (RBool b) h') h.
Proof.
  induction fuel as [|f IH]; intros h Hg; [exact I|]. cbn [delete].
  eapply safe_bind; [exact Hg|apply traverse_safe; auto|].
  intros x h1 Hh1 Hx. pose proof (x_good _ _ _ Hh1) as Hg1.
  unfold leaf_of. destruct (s_node (cur x)) as [c|] eqn:En; [|exact I]. cbn [pbind].
  pose proof (arrived_range _ _ _ _ Hx En) as Hr. destruct Hx as (([Hs _] & Hset & _) & _).
  destruct (leaf_decides _ _ _ Hg1 Hs Hset En) as (w & W1 & W2 & W3 & W4).
  destruct (lcheckw_spec c k v W3 Hr) as (b & ix & Ec & Hb & Hpos). rewrite Ec. cbn [lift pbind fst snd].
  destruct b.
  - cbn [safe]. intros h2 Hh2. cbn zeta. pose proof (x_good _ _ _ Hh2) as Hg2. split; [intros _; apply IH; auto|].
    intros Ht. pose proof (snap_ext _ _ _ _ Hg1 Hh2 Hs) as Hs2. split; [apply Hs2|]. exists (pub (now h2)).
    pose proof (cas_get _ _ Hs2 Ht) as Hget. rewrite En in Hget, Hset. pose proof (now_ok _ Hg2) as Hw.
    pose proof (s_pub _ _ Hs2) as Hp.
    assert (Hu : upd1 (wm (now h2)) (cas_mem (wm (now h2)) (s_id (cur x)) (NLeaf (LDel k v ix c)))
                 (s_id (cur x)) (nptr (wm (now h2))) (NLeaf (LDel k v ix c))).
    { apply cas_upd1; [apply Hw|apply pub_bound; auto]. }
    destruct (swap_leaf_del _ _ _ _ _ _ _ _ _ Hw Hp Hget (settled_live _ Hset) Hu) as (A & B & C & D).
    { simpl. split; auto. split; auto. split; auto. apply Hb. auto. }
    split; [eapply upd_guar; eauto|]. right. exists true. split; auto. intros full. simpl. auto.
  - apply safe_ret. intros h2 Hh2. apply (done_ext _ _ _ _ _ Hh2). exists w. split; auto. intros full _.
    simpl. split; [|apply same_refl]. rewrite W4 by auto. intros Hm. apply Hb in Hm. discriminate.
Qed.

(** * ConditionalInsert *)
Lemma cond_insert_safe fuel k v pred : forall h, hgood h ->
  safe (fun w w' x => act (OpCond k v pred) w w' (RCond (fst x) (snd x))) None (cond_insert fuel k v pred)
    (fun x h' => done (OpCond k v pred) (RCond (fst x) (snd x)) h') h.
Proof.
  induction fuel as [|f IH]; intros h Hg; [exact I|]. cbn [cond_insert].
  eapply safe_bind; [exact Hg|apply traverse_safe; auto|].
  intros x h1 Hh1 Hx. pose proof (x_good _ _ _ Hh1) as Hg1.
  unfold leaf_of. destruct (s_node (cur x)) as [c|] eqn:En; [|exact I]. cbn [pbind].
  pose proof (arrived_range _ _ _ _ Hx En) as Hr. destruct Hx as (([Hs _] & Hset & _) & _).
  destruct (leaf_decides _ _ _ Hg1 Hs Hset En) as (w & W1 & W2 & W3 & W4).
  destruct (lcondw_spec pred c k v W3 Hr) as (r & Ec & Hres). rewrite Ec. cbn [lift pbind].
  destruct r as [| |ix].
  - apply safe_ret. intros h2 Hh2. apply (done_ext _ _ _ _ _ Hh2). exists w. split; auto. intros full _.
    simpl. split; [|apply same_refl]. destruct Hres as (y & Y1 & Y2). exists y. split; auto. apply W4; auto.
  - apply safe_ret. intros h2 Hh2. apply (done_ext _ _ _ _ _ Hh2). exists w. split; auto. intros full _.
    simpl. split; [apply W4; auto|apply same_refl].
  - destruct Hres as (-> & Hm & Hpr).
    cbn [safe]. intros h2 Hh2. cbn zeta. pose proof (x_good _ _ _ Hh2) as Hg2. split; [intros _; apply IH; auto|].
    intros Ht. pose proof (snap_ext _ _ _ _ Hg1 Hh2 Hs) as Hs2. split; [apply Hs2|]. exists (pub (now h2)).
    pose proof (cas_get _ _ Hs2 Ht) as Hget. rewrite En in Hget, Hset. pose proof (now_ok _ Hg2) as Hw.
    pose proof (s_pub _ _ Hs2) as Hp. set (ix := (ub k (lbase_for k c), false)).
    assert (Hu : upd1 (wm (now h2)) (cas_mem (wm (now h2)) (s_id (cur x)) (NLeaf (LIns k v ix c)))
                 (s_id (cur x)) (nptr (wm (now h2))) (NLeaf (LIns k v ix c))).
    { apply cas_upd1; [apply Hw|apply pub_bound; auto]. }
    destruct (swap_leaf_ins _ _ _ _ _ _ _ _ _ Hw Hp Hget (settled_live _ Hset) Hu) as (A & B & C & D).
    { simpl. split; auto. split; auto. split; auto. reflexivity. }
    split; [eapply upd_guar; eauto|]. right. exists (true, false). split; auto. intros full. simpl.
    split; auto. split; auto. intros y Hy. apply Hpr.
    assert (W5 : leaf (wm (now h2)) (s_id (cur x)) c) by (unfold leaf; apply node_of_get; eauto).
    apply (contents_leaf (now h2) (s_id (cur x)) c k y Hw); auto.
    eapply (k_live _ Hw); eauto. apply (settled_live _ Hset).
Qed.

(** * GetValue *)
Notation here_ro := (here above).
Lemma load_ro_safe h k i : hgood h -> pub (now h) i -> above (lo (wm (now h)) i) k ->
  safe ND None (load_ro k i) (fun o h' => match o with None => True | Some x => here_ro x h' /\ key x = k end) h.
Proof.
  intros Hg Hp Ha. unfold load_ro. cbn [safe]. intros h1 Hh1. split; [apply Hh1, Hp|]. intros [p n] Hy. cbn [fst snd].
  pose proof (x_good _ _ _ Hh1) as Hg1. pose proof (l_pub _ _ (x_le _ _ _ Hh1) _ Hp) as Hp1.
  assert (Hn : node_of (wm (now h1)) i = Some n) by (apply node_of_get; eauto).
  destruct (strip_ok h1 _ (snap_load _ _ _ _ Hg1 Hp1 Hy)) as (T1 & T2 & T3 & T4 & T5).
  set (s := strip_snap _) in *. destruct (is_remove (s_node s)); [intros h2 _; exact I|].
  apply safe_ret. intros h2 Hh2. split; [|auto]. split.
  - split; [cbn [cur]; ext|exact I].
  - cbn [cur key]. split; [auto|]. rewrite T3. cbn [s_node]. rewrite <- (lo_node _ _ _ Hn).
    rewrite (le_lo _ _ _ (now_ok _ Hg) (x_le _ _ _ Hh1) Hp). exact Ha.
Qed.
Lemma descend_ro_safe fuel : forall h x, hgood h -> here_ro x h ->
  safe ND None (descend_ro fuel x) (fun o h' => match o with None => True | Some y => arrived kge above (key x) y h' end) h.
Proof.
  induction fuel as [|f IH]; intros h x Hg Hx; [exact I|]. cbn [descend_ro].
  eapply safe_bind; [exact Hg|apply (nav_inner_safe kge inavigate above above_down above_go above_nav); auto|].
  intros o h1 Hh1 Ho. pose proof (x_good _ _ _ Hh1) as Hg1. destruct o as [[i x']|]; [|intros h2 _; exact I].
  destruct Ho as (O1 & O4 & O5 & O6 & O7 & O8).
  eapply safe_bind; [exact Hg1|apply load_ro_safe; [exact Hg1|exact O6|rewrite O4; exact O7]|].
  intros o h2 Hh2 Hl. pose proof (x_good _ _ _ Hh2) as Hg2. destruct o as [y|]; [|intros h3 _; exact I].
  destruct Hl as [L1 L2]. destruct (is_leaf (s_node (cur y))) eqn:Elf.
  - eapply safe_mono; [| | |apply (sibling_chain_safe kge above above_down above_go); eauto]; auto.
    intros o h3. destruct o as [z|]; auto. intros (A & B & C & D). split; auto. split; [congruence|]. split; [congruence|auto].
  - eapply safe_mono; [| | |apply IH; eauto]; auto.
    intros o h3. destruct o as [z|]; auto. rewrite L2, O4. auto.
Qed.
Lemma get_value_safe fuel k : forall h, hgood h ->
  safe ND None (get_value fuel k) (fun l h' => done (OpGet k) (RVals l) h') h.
Proof.
  induction fuel as [|f IH]; intros h Hg; [exact I|]. cbn [get_value safe].
  intros h1 Hh1. pose proof (x_good _ _ _ Hh1) as Hg1. destruct (k_root _ (now_ok _ Hg1)) as [R1 R2].
  eapply safe_bind; [exact Hg1|apply load_ro_safe; [exact Hg1|exact R1|rewrite R2; exact I]|].
  intros o h2 Hh2 Hl. pose proof (x_good _ _ _ Hh2) as Hg2. destruct o as [x|]; [|apply IH; auto].
  destruct Hl as [L1 L2].
  eapply safe_bind; [exact Hg2|apply descend_ro_safe; auto|].
  intros o h3 Hh3 Hd. pose proof (x_good _ _ _ Hh3) as Hg3. destruct o as [y|]; [|apply IH; auto].
  unfold leaf_of. destruct (s_node (cur y)) as [c|] eqn:En; [|exact I]. cbn [pbind].
  pose proof (arrived_range _ _ _ _ Hd En) as Hr. rewrite L2 in Hr. destruct Hd as (([Hs _] & Hset & _) & _).
  destruct (leaf_decides_at _ _ _ Hg3 Hs Hset En) as (w & W1 & W2 & W3 & W5 & W4).
  apply safe_lift. intros l h4 El Hh4. apply (done_ext _ _ _ _ _ Hh4). exists w. split; auto.
  intros full Hf. simpl. split; [|apply same_refl]. split.
  2:{ destruct (lvalues_sound c k l W3 Hr El) as [S1 S2]. split; [exact S1|]. intros v Hv. apply W4; auto. }
  intros ->. specialize (Hf eq_refl _ _ W5 W2 Hr).
  destruct (lvaluesw_spec c k W3 Hf Hr) as (l' & El' & Hnd & Hin). rewrite El' in El. inversion El; subst l'.
  split; auto. intros v. rewrite Hin. symmetry. apply W4; auto.
Qed.

(** * Page fetch of the iterators *)
Lemma page_done h x c (o : op) low items high : hgood h -> snap_ok h (cur x) -> settled (s_node (cur x)) ->
  s_node (cur x) = NLeaf c -> lconsolidate c = Ok (LBase low items high) ->
  (forall w, page_of (contents (wm w)) low items high -> low = llow c -> high = lhigh c ->
     forall full, effect full o (contents (wm w)) (contents (wm w)) (RPage low items high)) ->
  done o (RPage low items high) h.
Proof.
  intros Hg Hs Hset En Ec Hf. destruct (leaf_decides _ _ _ Hg Hs Hset En) as (w & W1 & W2 & W3 & W4).
  destruct (lconsolidatew_spec c _ W3 Ec) as (items' & Ec' & Hwf & _ & Hin).
  inversion Ec'; subst low items' high.
  exists w. split; auto. intros full _. apply Hf; auto.
  destruct Hwf as ((A & _) & B). split; auto. split; auto. intros k v. rewrite Hin. unfold in_range. split.
  - intros [[X Y] Z]. split; auto. split; auto. apply W4; auto. split; auto.
  - intros (X & Y & Z). split; auto. apply W4; auto. split; auto.
Qed.
Lemma fetch_safe tr kr go (o : op) fuel k : (forall h, hgood h -> safe ND None (tr fuel k) (arrived go kr k) h) ->
  (forall x h c, arrived go kr k x h -> s_node (cur x) = NLeaf c -> forall w items,
     page_of (contents (wm w)) (llow c) items (lhigh c) ->
     forall full, effect full o (contents (wm w)) (contents (wm w)) (RPage (llow c) items (lhigh c))) ->
  forall h, hgood h -> safe ND None (fetch tr fuel k) (fun r h' => done o r h') h.
Proof.
  intros Htr Hf h Hg. unfold fetch. eapply safe_bind; [exact Hg|apply Htr; auto|].
  intros x h1 Hh1 Hx. pose proof (x_good _ _ _ Hh1) as Hg1.
  unfold leaf_of. destruct (s_node (cur x)) as [c|] eqn:En; [|exact I]. cbn [pbind].
  destruct (lconsolidate c) as [c'|] eqn:Ec; [|exact I]. cbn [lift pbind].
  unfold page_resp. destruct c' as [low items high| | | | |]; try exact I.
  pose proof Hx as (([Hs _] & Hset & _) & _).
  apply safe_ret. intros h2 Hh2. apply (done_ext _ _ _ _ _ Hh2). eapply page_done; eauto.
  intros w Hp -> ->. eapply Hf; eauto.
Qed.

Lemma first_safe h : hgood h -> safe ND None first_page (fun r h' => done OpFirst r h') h.
Proof.
  intros Hg. unfold first_page. cbn [safe]. intros h1 Hh1. pose proof (x_good _ _ _ Hh1) as Hg1. split; [apply (k_first _ (now_ok _ Hg1))|]. intros [p n] Hy. cbn [snd].
  destruct (k_first _ (now_ok _ Hg1)) as (F1 & F2 & _). pose proof (snap_load _ _ _ _ Hg1 F1 Hy) as Hs.
  destruct n as [c|c]; [|exact I]. destruct (lconsolidate c) as [c'|] eqn:Ec; [|exact I]. cbn [lift pbind].
  unfold page_resp. destruct c' as [low items high| | | | |]; try exact I.
  apply safe_ret. intros h2 Hh2. apply (done_ext _ _ _ _ _ Hh2).
  apply (page_done h1 {| key := kdef; cur := {| s_id := FIRST_LEAF; s_ptr := p; s_node := NLeaf c |}; prt := PUninit |} c OpFirst low items high); auto.
  - cbn [cur s_node]. destruct c; try exact I. discriminate.
  - intros w Hp El _ full. simpl. split; [|split; [auto|apply same_refl]].
    rewrite El. rewrite <- F2. symmetry. apply (s_lo _ _ Hs).
Qed.

(** * Every operation *)
Lemma code_safe fuel o : forall h, hgood h -> safe (act o) None (code fuel o) (done o) h.
Proof.
  intros h Hg. destruct o as [k v|k v|k v pred|k|k|k|]; cbn [code].
  - apply safe_map. apply insert_safe; auto.
  - apply safe_map. apply delete_safe; auto.
  - apply safe_map. apply cond_insert_safe; auto.
  - apply safe_map. eapply safe_mono; [| | |apply get_value_safe; auto]; auto. intros ? ? ? [].
  - eapply safe_mono; [| | |eapply (fetch_safe traverse above kge (OpPage k)); auto]; auto.
    + intros ? ? ? [].
    + intros h0 Hg0. apply traverse_safe; auto.
    + intros x h0 c Hx En w items Hp full. destruct (arrived_range _ _ _ _ Hx En) as [A B].
      simpl. split; auto. split; auto. split; auto. apply same_refl.
  - eapply safe_mono; [| | |eapply (fetch_safe traverseBI anywhere kgt (OpPageBI k)); auto]; auto.
    + intros ? ? ? [].
    + intros h0 Hg0. apply traverseBI_safe; auto.
    + intros x h0 c (_ & <- & _ & Hst) En w items Hp full. simpl. split; [|split; auto; apply same_refl].
      unfold stops in Hst. rewrite En in Hst. simpl in Hst. destruct (lhigh c) as [[hk ?]|]; auto.
  - eapply safe_mono; [| | |apply first_safe; auto]; auto. intros ? ? ? [].
Qed.
End TreeProg4.
