(** Safety of the index operations, function by function: whatever other
    threads do, every step keeps the invariant of TreeInv.v, and only the
    final step of an update changes the stored pairs. *)
From Coq Require Import List Arith Lia Bool ZArith.
From Verif Require Import Base SmallSet SmallProofs Leaf LeafSpec LeafProofs LeafWeak LeafProofs2 Inner InnerSpec InnerProofs InnerProofs2 Tree TreeSpec TreeInv TreeSafe.
Import ListNotations.

Section TreeProg.
Context {P : Params}.
Notation hist := (list world).

(** * Ids mentioned by an inner page *)
Lemma lid_refs c : irefs c (ilid c).
Proof.
  induction c as [d low lid items high|[s0 i0] nx loc c IH|[s0 i0] [ps pi] nx loc c IH|k sib n c IH|id c IH|mk id r IHr c IHc|p c IH]; simpl; auto.
Qed.
Lemma seps_refs c : forall s i, seps c s i -> irefs c i.
Proof.
  induction c as [d low lid items high|[s0 i0] nx loc c IH|[s0 i0] [ps pi] nx loc c IH|k sib n c IH|id c IH|mk id r IHr c IHc|p c IH];
    simpl; intros s i H.
  - right. destruct items as [|x items]; simpl in *; [tauto|]. right. apply in_map_iff. exists (s, i). auto.
  - destruct H as [[_ ->]|[_ H]]; eauto.
  - destruct H as [_ H]. eauto.
  - destruct H as [_ H]. eauto.
  - eauto.
  - destruct (klt s mk); [eauto|]. destruct H as [[_ ->]|H]; [|eauto]. left. apply lid_refs.
  - eauto.
Qed.
Lemma nth_refs {B} (items : list (B * nat)) j x : nth_error items j = Some x -> In (snd x) (map snd items).
Proof. intros H. apply in_map. eapply nth_error_In; eauto. Qed.
Lemma inav_refs k c : forall st fin i, inav k c st fin = Ok i -> irefs c i.
Proof.
  induction c as [d low lid items high|[s0 i0] nx loc c IH|[s0 i0] [ps pi] nx loc c IH|k0 sib n c IH|id c IH|mk id r IHr c IHc|p c IH];
    simpl; intros st fin i H; try discriminate.
  - destruct items as [|x0 items]; [discriminate|]. unfold locate in H.
    destruct (_ && _); [|discriminate]. destruct (st + _) as [|j]; [discriminate|].
    destruct (nth_error _ j) as [x|] eqn:E; [|discriminate]. inversion H; subst.
    right. eapply (nth_refs (x0 :: items)); eauto.
  - destruct (kge k s0); [destruct (before_next k nx); [inversion H; auto|]|]; right; eauto.
  - destruct (_ && _); [inversion H; auto|]. destruct (kge k s0); right; right; eauto.
  - eauto.
  - destruct (kge k mk); [left|right]; eauto.
Qed.
Lemma inavBI_refs k c : forall i, inavBI k c = Ok i -> irefs c i.
Proof.
  induction c as [d low lid items high|[s0 i0] nx loc c IH|[s0 i0] [ps pi] nx loc c IH|k0 sib n c IH|id c IH|mk id r IHr c IHc|p c IH];
    simpl; intros i H; try discriminate.
  - unfold locateBI in H. destruct items as [|x0 items]; [discriminate|].
    destruct (nth_error (x0 :: items) (upper_bound k items)) as [x|] eqn:E; [|discriminate].
    destruct (keq (fst x) k).
    + destruct (upper_bound k items) as [|j]; [discriminate|].
      destruct (nth_error (x0 :: items) j) as [y|] eqn:E2; [|discriminate]. inversion H; subst.
      right. eapply (nth_refs (x0 :: items)); eauto.
    + inversion H; subst. right. eapply (nth_refs (x0 :: items)); eauto.
  - destruct (_ && _); [inversion H; auto|]. right; eauto.
  - destruct (_ && _); [inversion H; auto|]. right; right; eauto.
  - eauto.
  - destruct (kgt k mk); [left|right]; eauto.
Qed.
Lemma ileft_loop_refs (S : nat -> Prop) items fuel : (forall x, In x items -> S (snd x)) -> forall i1 s counter left i,
  (forall d, In d s -> S (snd (s_item d))) -> (forall x, left = Some x -> S (snd x)) ->
  ileft_loop fuel items i1 s counter left = Ok i -> S i.
Proof.
  intros Hi. induction fuel as [|f IH]; intros i1 s counter left i Hs Hl; simpl.
  - destruct counter; [|discriminate]. destruct left; [|discriminate]. intros H; inversion H; subst. apply Hl; auto.
  - destruct counter as [|cn].
    { destruct left; [|discriminate]. intros H; inversion H; subst. apply Hl; auto. }
    assert (Hn : forall j x, nth_error items j = Some x -> forall y, Some x = Some y -> S (snd y)).
    { intros j x Hj y E. inversion E; subst. apply Hi. eapply nth_error_In; eauto. }
    destruct s as [|d s'].
    + destruct i1 as [|j]; [discriminate|]. destruct (nth_error items j) eqn:E; [|discriminate].
      apply IH; auto. eapply Hn; eauto.
    + assert (Hd : forall y, Some (s_item d) = Some y -> S (snd y)).
      { intros y E. inversion E; subst. apply Hs. simpl; auto. }
      assert (Hs' : forall d, In d s' -> S (snd (s_item d))) by (intros; apply Hs; simpl; auto).
      destruct i1 as [|[|j]]; [discriminate| |].
      * destruct (s_ins d); apply IH; auto.
      * destruct (nth_error items (Datatypes.S j)) eqn:E; [|discriminate].
        destruct (keq _ _); [destruct (s_ins d); apply IH; auto|].
        destruct (klt _ _); [apply IH; auto; eapply Hn; eauto|]. destruct (s_ins d); apply IH; auto.
Qed.
Lemma ileft_refs k c i : ileft k c = Ok (Some i) -> irefs c i.
Proof.
  assert (G : forall (S : nat -> Prop) cap c s, (forall j, irefs c j -> S j) -> (forall d, In d s -> S (snd (s_item d))) ->
    forall i, ileft_rec cap k c s = Ok (Some i) -> S i).
  { clear c i. intros S cap.
    assert (Hins : forall b it s s', S (snd it) -> (forall d, In d s -> S (snd (s_item d))) ->
      sinsert sgt cap {| s_ins := b; s_item := it |} s = Ok s' -> forall d, In d s' -> S (snd (s_item d))).
    { intros b it s s' H1 H2 E d Hd. unfold sinsert in E. destruct (_ <=? _); [|discriminate]. inversion E; subst.
      apply insert_In in Hd as [->|Hd]; auto. }
    induction c as [d low lid items high|[s0 i0] nx loc c IH|[s0 i0] [ps pi] nx loc c IH|k0 sib n c IH|id c IH|mk id r IHr c IHc|p c IH];
      intros s Hc Hs i; cbn [ileft_rec fst]; try discriminate.
    - destruct (ileft_loop _ _ _ _ _ _) as [r|] eqn:E; simpl; [|discriminate]. intros H; inversion H; subst.
      eapply ileft_loop_refs; [| | |exact E]; auto; [|discriminate].
      intros x Hx. apply Hc. simpl. right. apply in_map; auto.
    - assert (S i0) by (apply Hc; simpl; auto).
      assert (forall j, irefs c j -> S j) by (intros; apply Hc; simpl; auto).
      destruct (kle _ _); [|apply IH; auto].
      destruct (sinsert _ _ _ _) as [s'|] eqn:E; cbn; [|discriminate]. apply IH; auto. eapply Hins; [| |exact E]; auto.
    - assert (S i0) by (apply Hc; simpl; auto).
      assert (forall j, irefs c j -> S j) by (intros; apply Hc; simpl; auto).
      destruct (kle _ _); [|apply IH; auto].
      destruct (sinsert _ _ _ _) as [s'|] eqn:E; cbn; [|discriminate]. apply IH; auto. eapply Hins; [| |exact E]; auto.
    - apply IH; auto. }
  intros H. apply (G (irefs c) (idepth c) c []); [auto|intros d []|].
  unfold ileft in H. destruct (ihigh c) as [[h ?]|]; [destruct (klt k h); [|discriminate]|]; exact H.
Qed.

(** * Low keys *)
Lemma lole_refl a : lole a a.
Proof. destruct a; simpl; auto. order. Qed.
Lemma lole_trans a b c : lole a b -> lole b c -> lole a c.
Proof. destruct a, b, c; simpl; try tauto. intros; order. Qed.
Lemma lole_above a b k : lole a b -> above b k -> above a k.
Proof. destruct a, b; simpl; try tauto. intros; order. Qed.
Lemma lole_sabove a b k : lole a b -> sabove b k -> sabove a k.
Proof. destruct a, b; simpl; try tauto. intros; order. Qed.
Lemma sabove_lole a s : sabove a s -> lole a (Some s).
Proof. destruct a; simpl; auto. intros; order. Qed.
Lemma lole_none a : lole None a.
Proof. exact I. Qed.

Definition settled (n : node) : Prop :=
  match n with
  | NLeaf (LRemove _ _) => False
  | NInner (IRemove _ _) | NInner (IAbort _ _) => False
  | _ => True
  end.
Lemma settled_live n : settled n -> is_remove n = false.
Proof. destruct n as [[]|[]]; simpl; tauto. Qed.

Lemma settled_body_leaf w c : bodyok w (NLeaf c) -> settled (NLeaf c) -> lwfw c.
Proof. destruct c; simpl; tauto. Qed.
Lemma settled_body_inner w c : bodyok w (NInner c) -> settled (NInner c) -> innerok w c.
Proof. destruct c; simpl; tauto. Qed.
Lemma inner_body w c : innerok w c -> bodyok w (NInner c) /\ settled (NInner c).
Proof. intros [A B]. split; [|destruct c; simpl in *; tauto]. destruct c; simpl in A; try tauto; split; auto. Qed.
Lemma body_range w n : bodyok w n -> range_ok (nlow n) (nhigh n).
Proof.
  destruct n as [c|c]; simpl; [apply leaf_range|].
  intros H. assert (G : innerok w c -> range_ok (ilow c) (ihigh c)) by (intros [A _]; eapply iwf_range; eauto).
  destruct c; try (apply G; exact H); simpl.
  - destruct H as [A _]. eapply iwf_range; eauto.
  - destruct H as [[A _] _]. eapply iwf_range; eauto.
Qed.
(** A rebuilt or split page mentions no further ids. *)
Lemma base_refs lowof d low lid items high j : iwf lowof (IBase d low lid items high) ->
  irefs (IBase d low lid items high) j -> lole low (lowof j).
Proof.
  intros (rest & E & H1 & H2 & H3 & H4) [->|H].
  - rewrite H2. apply lole_refl.
  - rewrite E in H. simpl in H. destruct H as [<-|H]; [rewrite H2; apply lole_refl|].
    apply in_map_iff in H as ([s i] & <- & Hi). destruct (H4 _ _ Hi) as (A & _ & B). simpl. rewrite B. apply sabove_lole; auto.
Qed.

(** * Snapshots *)
Record snap_ok (h : hist) (s : snap) : Prop := {
  s_pub : pub (now h) (s_id s);
  s_heap : heap (wm (now h)) (s_ptr s) = Some (s_node s);
  s_body : bodyok (now h) (s_node s);
  s_next : nextok (now h) (s_node s);
  s_lo : lo (wm (now h)) (s_id s) = nlow (s_node s);
  s_kind : exists n, node_of (wm (now h)) (s_id s) = Some n /\ is_leaf n = is_leaf (s_node s);
  s_was : is_leaf (s_node s) = true ->
    exists w, In w h /\ pub w (s_id s) /\ get (wm w) (s_id s) = Some (s_ptr s, s_node s);
  s_rem : is_remove (s_node s) = true -> node_of (wm (now h)) (s_id s) = Some (s_node s)
}.
Lemma now_in h : hgood h -> In (now h) h.
Proof. destruct h as [|w h]; intros [A _]; [congruence|simpl; auto]. Qed.
Lemma snap_load h i p n : hgood h -> pub (now h) i -> get (wm (now h)) i = Some (p, n) ->
  snap_ok h {| s_id := i; s_ptr := p; s_node := n |}.
Proof.
  intros Hg Hp Hn. pose proof (now_ok _ Hg) as Hw.
  destruct (k_pub _ Hw _ Hp) as (n' & A & B & C).
  assert (Hn' : node_of (wm (now h)) i = Some n) by (apply node_of_get; eauto).
  rewrite Hn' in A. inversion A; subst n'. constructor; simpl; auto.
  - apply get_tab in Hn. tauto.
  - apply lo_node; auto.
  - eauto.
  - intros _. exists (now h). split; [apply now_in; auto|auto].
Qed.
Lemma snap_ext own h h' s : hgood h -> hext own h h' -> snap_ok h s -> snap_ok h' s.
Proof.
  intros Hg [(l & E) Hl Hg' _] [A B C D F (n & G1 & G2) W Rm].
  pose proof (now_ok _ Hg) as Hw. constructor.
  - apply Hl; auto.
  - apply Hl; auto.
  - eapply bodyok_le; eauto.
  - eapply nextok_le; eauto.
  - rewrite <- F. eapply le_lo; eauto.
  - destruct (le_kind _ _ _ _ Hl A G1) as (n' & X & Y & _). exists n'. split; auto. congruence.
  - intros Hlf. destruct (W Hlf) as (w & X & Y). exists w. split; auto. rewrite E. apply in_or_app; auto.
  - intros Hr. specialize (Rm Hr). apply node_of_get in Rm as (q & Rm).
    destruct (l_node _ _ Hl _ _ _ A Rm) as (p' & n' & X & _ & _ & Y). destruct (Y Hr) as [-> ->].
    apply node_of_get. eauto.
Qed.
Lemma cas_get h s : snap_ok h s -> tab (wm (now h)) (s_id s) = Some (s_ptr s) ->
  get (wm (now h)) (s_id s) = Some (s_ptr s, s_node s).
Proof. intros [] E. apply get_intro; auto. Qed.
Lemma pub_bound w i : wok w -> pub w i -> i < nid (wm w).
Proof.
  intros Hw Hp. destruct (k_pub _ Hw _ Hp) as (n & A & _). apply node_of_get in A as (p & A).
  apply get_tab in A as [A _]. apply (b_tab _ (k_bound _ Hw)) in A. tauto.
Qed.

(** ** Steps on a published page *)
Lemma upd_guar own w m' (pub' : nat -> Prop) i p' n' : pub w i -> upd1 (wm w) m' i p' n' ->
  (forall x, pub' x -> pub w x \/ own = Some x) ->
  wok {| wm := m'; pub := pub' |} -> le w {| wm := m'; pub := pub' |} -> guar own w {| wm := m'; pub := pub' |}.
Proof.
  intros Hp Hu Hx Hw Hl. constructor; auto. simpl. intros j Hj _ Hn. split.
  - intros H. apply Hx in H as [H|H]; auto.
  - apply (u_other _ _ _ _ _ Hu). intros ->. auto.
Qed.
Lemma hgood_cons own h w' : hgood h -> guar own (now h) w' -> hgood (w' :: h).
Proof. intros Hg Hu. split; [discriminate|]. intros w [<-|H]; [apply Hu|apply Hg; auto]. Qed.

(** CAS of an inner page whose replacement is fine already in the old world. *)
Lemma inner_step own h s c c' : hgood h -> snap_ok h s -> s_node s = NInner c -> settled (NInner c) ->
  tab (wm (now h)) (s_id s) = Some (s_ptr s) ->
  ilow c' = ilow c -> bodyok (now h) (NInner c') -> nextok (now h) (NInner c') ->
  let w' := {| wm := cas_mem (wm (now h)) (s_id s) (NInner c'); pub := pub (now h) |} in
  guar own (now h) w' /\ same (contents (wm (now h))) (contents (wm w')) /\
  snap_ok (w' :: h) {| s_id := s_id s; s_ptr := nptr (wm (now h)); s_node := NInner c' |}.
Proof.
  intros Hg Hs En Hset Ht El Hb Hn w'. pose proof (now_ok _ Hg) as Hw.
  pose proof (cas_get _ _ Hs Ht) as Hget. rewrite En in Hget. pose proof (s_pub _ _ Hs) as Hp.
  assert (Hu : upd1 (wm (now h)) (wm w') (s_id s) (nptr (wm (now h))) (NInner c')).
  { apply cas_upd1; [apply Hw|apply pub_bound; auto]. }
  assert (Hle : le (now h) w') by (eapply upd1_le; eauto; apply (settled_live _ Hset)).
  destruct (swap_inner (now h) (wm w') (pub w') (s_id s) _ _ _ c' Hw Hp Hget (settled_live _ Hset) Hu El) as [A B]; auto.
  { eapply (bodyok_le _ w'); eauto. }
  { eapply (nextok_le _ w'); eauto. }
  assert (G : guar own (now h) w') by (eapply upd_guar; eauto).
  split; auto. split; auto. apply snap_load; [eapply hgood_cons; eauto|exact Hp|apply Hu].
Qed.
(** CAS of a leaf page with the same pairs. *)
Lemma leaf_step own h s c c' : hgood h -> snap_ok h s -> s_node s = NLeaf c -> settled (NLeaf c) ->
  tab (wm (now h)) (s_id s) = Some (s_ptr s) ->
  llow c' = llow c -> lhigh c' = lhigh c -> lwfw (lbody c') ->
  (forall k v, in_range c k -> (lmem c' k v <-> lmem c k v)) ->
  let w' := {| wm := cas_mem (wm (now h)) (s_id s) (NLeaf c'); pub := pub (now h) |} in
  guar own (now h) w' /\ same (contents (wm (now h))) (contents (wm w')) /\
  snap_ok (w' :: h) {| s_id := s_id s; s_ptr := nptr (wm (now h)); s_node := NLeaf c' |}.
Proof.
  intros Hg Hs En Hset Ht El Eh Hwf Hm w'. pose proof (now_ok _ Hg) as Hw.
  pose proof (cas_get _ _ Hs Ht) as Hget. rewrite En in Hget. pose proof (s_pub _ _ Hs) as Hp.
  assert (Hu : upd1 (wm (now h)) (wm w') (s_id s) (nptr (wm (now h))) (NLeaf c')).
  { apply cas_upd1; [apply Hw|apply pub_bound; auto]. }
  destruct (swap_leaf_same _ _ _ _ _ _ _ Hw Hp Hget (settled_live _ Hset) Hu El Eh Hwf Hm) as (A & B & C).
  assert (G : guar own (now h) w') by (eapply upd_guar; eauto).
  split; auto. split; auto. apply snap_load; [eapply hgood_cons; eauto|exact Hp|apply Hu].
Qed.
Lemma snap_cons own h w' s : hgood h -> guar own (now h) w' -> snap_ok h s -> snap_ok (w' :: h) s.
Proof. intros Hg Hu. eapply (snap_ext None); auto. eapply hext_cons; eauto. Qed.

(** * ConsolidateNode *)
Definition like (s s' : snap) (h : hist) : Prop :=
  snap_ok h s' /\ settled (s_node s') /\ s_id s' = s_id s /\ nlow (s_node s') = nlow (s_node s) /\
  nhigh (s_node s') = nhigh (s_node s) /\ is_leaf (s_node s') = is_leaf (s_node s).
Lemma consolidated_inner w c c' d : innerok w c -> iconsolidate d c = Ok c' ->
  innerok w c' /\ ilow c' = ilow c /\ ihigh c' = ihigh c /\ forall j, irefs c' j -> irefs c j.
Proof.
  intros [A B] E. destruct (iconsolidate_spec _ c d A) as (rest & E' & _ & Hin & _ & W).
  rewrite E' in E. inversion E; subst c'. simpl.
  assert (R : forall j, irefs (IBase d (ilow c) (ilid c) ((rawlow (ilow c), ilid c) :: rest) (ihigh c)) j -> irefs c j).
  { simpl. intros j [->|[<-|H]]; try apply lid_refs. apply in_map_iff in H as ([s i] & <- & Hi).
    eapply seps_refs. apply Hin. eauto. }
  split; [|auto]. split; [exact W|]. intros j Hj. simpl. apply B. auto.
Qed.
Lemma consolidate_safe h s : hgood h -> snap_ok h s -> settled (s_node s) -> safe ND None (consolidate s) (like s) h.
Proof.
  intros Hg Hs Hset. unfold consolidate. destruct (s_node s) as [c|c] eqn:En.
  - destruct (lconsolidate c) as [c1|] eqn:E; [|exact I].
    destruct (lconsolidatew_spec c c1) as (items & -> & Hwf & _ & Hin); auto.
    { pose proof (s_body _ _ Hs) as Hb. rewrite En in Hb. eapply settled_body_leaf; eauto. }
    simpl. intros h' Hx. pose proof (x_good _ _ _ Hx) as Hg'.
    pose proof (snap_ext _ _ _ _ Hg Hx Hs) as Hs'. split.
    + intros _ h2 Hx2. split; [eapply snap_ext; eauto|]. rewrite En. auto 10.
    + intros Ht. split; [apply Hs'|]. exists (pub (now h')).
      destruct (leaf_step None h' s c (LBase (llow c) items (lhigh c)) Hg' Hs' En Hset Ht eq_refl eq_refl Hwf) as (A & B & C).
      { intros k v Hk. simpl. rewrite Hin. tauto. }
      split; auto. left. split; auto. intros h2 Hx2. split; [eapply snap_ext; [|exact Hx2|exact C]; eapply hgood_cons; eauto|].
      rewrite En. simpl. auto 10.
  - pose proof (s_body _ _ Hs) as Hb. rewrite En in Hb. pose proof (settled_body_inner _ _ Hb Hset) as Hi.
    destruct (iconsolidate_spec _ c 0 (proj1 Hi)) as (rest & E & _).
    rewrite E. set (c' := IBase _ _ _ _ _). simpl. intros h' Hx. pose proof (x_good _ _ _ Hx) as Hg'.
    pose proof (snap_ext _ _ _ _ Hg Hx Hs) as Hs'. split.
    + intros _ h2 Hx2. split; [eapply snap_ext; eauto|]. rewrite En. auto 10.
    + intros Ht. split; [apply Hs'|]. exists (pub (now h')).
      pose proof (s_body _ _ Hs') as Hb'. rewrite En in Hb'. pose proof (settled_body_inner _ _ Hb' Hset) as Hi'.
      destruct (consolidated_inner _ _ _ _ Hi' E) as (Hi2 & El & Eh & _).
      destruct (inner_step None h' s c c' Hg' Hs' En Hset Ht El) as (A & B & C).
      { apply inner_body; auto. }
      { pose proof (s_next _ _ Hs') as Hn. rewrite En in Hn. intros a b Hab. apply Hn. exact Hab. }
      split; auto. left. split; auto. intros h2 Hx2. split; [eapply snap_ext; [|exact Hx2|exact C]; eapply hgood_cons; eauto|].
      rewrite En. simpl. auto 10.
Qed.

(** * Contexts *)
Definition par_ok (h : hist) (l : option K) (p : par) : Prop :=
  match p with
  | PNode ps => snap_ok h ps /\ settled (s_node ps) /\ is_leaf (s_node ps) = false /\ lole (nlow (s_node ps)) l
  | _ => True
  end.
Definition ctx_ok (h : hist) (x : ctx) : Prop := snap_ok h (cur x) /\ par_ok h (nlow (s_node (cur x))) (prt x).
Lemma par_ext own h h' l p : hgood h -> hext own h h' -> par_ok h l p -> par_ok h' l p.
Proof. destruct p as [| |s]; simpl; auto. intros Hg Hx (A & B & C). split; auto. eapply snap_ext; eauto. Qed.
Lemma ctx_ext own h h' x : hgood h -> hext own h h' -> ctx_ok h x -> ctx_ok h' x.
Proof. intros Hg Hx [A B]. split; [eapply snap_ext; eauto|eapply par_ext; eauto]. Qed.

(** What JumpToNodeID and its parts guarantee: either an abort, or a settled
    page of the same kind, at most further left, under the same key. *)
Definition moved (x : ctx) (o : option ctx) (h : hist) : Prop :=
  match o with
  | None => True
  | Some x' => ctx_ok h x' /\ settled (s_node (cur x')) /\ key x' = key x /\
      lole (nlow (s_node (cur x'))) (nlow (s_node (cur x))) /\ is_leaf (s_node (cur x')) = is_leaf (s_node (cur x))
  end.
Lemma moved_none x h : moved x None h.
Proof. exact I. Qed.
Lemma moved_self h x : ctx_ok h x -> settled (s_node (cur x)) -> moved x (Some x) h.
Proof. intros A B. simpl. split; auto. split; auto. split; auto. split; auto. apply lole_refl. Qed.
Lemma moved_ext own h h' x o : hgood h -> hext own h h' -> moved x o h -> moved x o h'.
Proof.
  destruct o as [x'|]; simpl; auto. intros Hg Hx (A & B). split; auto. eapply ctx_ext; eauto.
Qed.
Lemma moved_trans h x x' o : lole (nlow (s_node (cur x'))) (nlow (s_node (cur x))) -> key x' = key x ->
  is_leaf (s_node (cur x')) = is_leaf (s_node (cur x)) -> moved x' o h -> moved x o h.
Proof.
  destruct o as [y|]; simpl; auto. intros A B C (D & E & F & G & H). split; auto. split; auto. split; [congruence|].
  split; [eapply lole_trans; eauto|congruence].
Qed.
Lemma like_ctx h x s : ctx_ok h x -> like (cur x) s h -> moved x (Some (set_cur x s)) h.
Proof.
  intros [A B] (C & D & E & F & G & H). simpl. split; [split; simpl; auto; rewrite F; auto|].
  split; auto. split; auto. split; auto. rewrite F. apply lole_refl.
Qed.

Lemma try_consolidate_safe h x : hgood h -> ctx_ok h x -> settled (s_node (cur x)) ->
  safe ND None (try_consolidate x) (fun x' h' => moved x (Some x') h') h.
Proof.
  intros Hg Hx Hset.
  assert (Hr : safe ND None (Ret x) (fun x' h' => moved x (Some x') h') h).
  { apply safe_ret. intros h' Hh. apply moved_self; auto. eapply ctx_ext; eauto. }
  unfold try_consolidate. destruct (is_delta _); [|exact Hr].
  match goal with |- context [if ?b then _ else _] => destruct b end; [|exact Hr].
  eapply safe_bind; [auto|apply consolidate_safe; auto; apply Hx|].
  intros s h' Hh Hl. apply safe_ret. intros h2 Hh2. eapply moved_ext; [|exact Hh2|].
  - apply Hh.
  - apply like_ctx; auto. eapply ctx_ext; eauto.
Qed.
End TreeProg.
