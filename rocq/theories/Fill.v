(** Without Delete no page runs empty, and no page is merged (C03, C15). *)
From Coq Require Import List Arith ZArith Bool Lia.
From Verif Require Import Base Leaf LeafSpec LeafWeak Inner Tree TreeSpec TreeInv TreeRun TreeLin Keeps TreeRoom SeqRun LeafProofs2
  Iter IterSpec IterProofs IterMoment IterBack MomentSpec Moment LeafProofs FillSpec.
Import ListNotations.

Section Fill.
Context {P : Params}.

(** Pages of an index in which Delete is never called. *)
Fixpoint grown (c : lchain) : Prop :=
  match c with
  | LBase _ _ _ => True
  | LIns _ _ _ c | LSplit _ _ _ c => grown c
  | LDel _ _ _ _ => False
  | LRemove _ c => grown c /\ llow c = None
  | LMerge _ _ r c => grown r /\ grown c /\ llow r = None
  end.
Definition sized (c : lchain) : Prop :=
  (llow c = None \/ (Z.of_nat LEAF_SIZE_LOWER < lcount c)%Z) /\ (0 <= lcount c)%Z /\ (lhigh c <> None -> (0 < lcount c)%Z).
Definition fed (n : node) : Prop := match n with NLeaf c => grown c /\ sized c | NInner _ => True end.

Lemma lcons_shape c c' : lconsolidate c = Ok c' -> exists items, c' = LBase (llow c) items (lhigh c) /\ lcount c = Z.of_nat (length items).
Proof.
  unfold lconsolidate. intros E. match type of E with bind ?r _ = _ => destruct r as [[[out d] bl]|] end; cbn [bind] in E; [|discriminate].
  destruct (lcount c <? Z.of_nat (length out))%Z; [discriminate|]. destruct (lcount c =? Z.of_nat (length out))%Z eqn:E2; [|discriminate].
  injection E as <-. apply Z.eqb_eq in E2. eauto.
Qed.
(** Both halves of a split are above the size at which pages are merged. *)
Lemma split_point_sizes items i : find_split_point items = Ok (Some i) -> LEAF_SIZE_LOWER < i /\ LEAF_SIZE_LOWER < length items - i.
Proof.
  unfold find_split_point. pose proof (Nat.div2_odd (length items)) as Ho.
  destruct (1 <? Nat.div2 (length items)) eqn:E1; [|discriminate]. apply Nat.ltb_lt in E1.
  destruct (nth_error items (Nat.div2 (length items))) as [x|]; [|discriminate].
  assert (Hb : forall j, Leaf.scan_back (fst x) items j <= j).
  { induction j as [|j IH]; cbn [Leaf.scan_back]; [lia|]. destruct (nth_error items (S j)); [|lia]. destruct (keq _ _); [|lia]. etransitivity; [exact IH|lia]. }
  specialize (Hb (Nat.div2 (length items) - 1)). destruct (Nat.odd (length items)); simpl Nat.b2n in Ho.
  - destruct (LEAF_SIZE_LOWER <? S (Leaf.scan_back (fst x) items (Nat.div2 (length items) - 1))) eqn:E2.
    + intros E. injection E as <-. apply Nat.ltb_lt in E2. lia.
    + unfold scan_fwd. match goal with |- context [Nat.div2 _ + 1 + ?a] => generalize a; intros a0 end.
      destruct (LEAF_SIZE_LOWER <? length items - (Nat.div2 (length items) + 1 + a0)) eqn:E3; [|discriminate]. intros E. injection E as <-. apply Nat.ltb_lt in E3. lia.
  - destruct (LEAF_SIZE_LOWER <? S (Leaf.scan_back (fst x) items (Nat.div2 (length items) - 1))) eqn:E2.
    + intros E. injection E as <-. apply Nat.ltb_lt in E2. lia.
    + unfold scan_fwd. match goal with |- context [Nat.div2 _ + 1 + ?a] => generalize a; intros a0 end.
      destruct (LEAF_SIZE_LOWER <? length items - (Nat.div2 (length items) + 1 + a0)) eqn:E3; [|discriminate]. intros E. injection E as <-. apply Nat.ltb_lt in E3. lia.
Qed.
Lemma sibling_shape c s : lsplit_sibling c = Ok (Some s) ->
  exists low items high i x, c = LBase low items high /\ s = LBase (Some x) (skipn i items) high /\ LEAF_SIZE_LOWER < i /\ LEAF_SIZE_LOWER < length items - i.
Proof.
  destruct c as [low items high| | | | |]; simpl; try discriminate. destruct (find_split_point items) as [[i|]|] eqn:Ei; simpl; try discriminate.
  destruct (nth_error items i) as [x|]; [|discriminate]. intros E. injection E as <-. exists low, items, high, i, (fst x). split; [reflexivity|]. split; [reflexivity|]. apply split_point_sizes. exact Ei.
Qed.
Lemma fed_closed : closedw fed.
Proof.
  constructor.
  - intros c c' [Hg (H1 & H2 & H3)] E. destruct (lcons_shape _ _ E) as (items & -> & En). split; [exact I|]. unfold sized. simpl. rewrite <- En. auto.
  - intros c s _ E. destruct (sibling_shape _ _ E) as (low & items & high & i & x & -> & -> & Hi & Hn). split; [exact I|]. unfold sized. cbn [llow lcount lhigh]. rewrite skipn_length. split; [right; lia|]. split; [lia|intros _; lia].
  - intros c. exact I.
  - intros k i c si high [Hg (H1 & H2 & H3)] E. destruct (sibling_shape _ _ E) as (low & items & high' & j & x & -> & Es & Hi & Hn). injection Es as -> -> ->.
    split; [exact I|]. unfold sized. cbn [llow lcount lhigh]. rewrite skipn_length. split; [right; lia|]. split; [lia|intros _; lia].
  - intros i low items high [_ (H1 & H2 & H3)] Hl. unfold sized. cbn [llow lcount lhigh grown fed] in *. destruct H1 as [->|H1]; [|lia]. split; [split; [exact I|reflexivity]|]. split; [left; reflexivity|]. auto.
  - intros k i j rc lc [[Hr Hn] (H1 & H2 & H3)] [Hg (G1 & G2 & G3)]. split; [cbn [grown]; auto|]. unfold sized. cbn [llow lcount lhigh] in *. split; [|split; [lia|intros H; specialize (H3 H); lia]].
    destruct G1 as [G1|G1]; [left; exact G1|right; lia].
Qed.
Lemma fed_ins k v ix c : fed (NLeaf c) -> fed (NLeaf (LIns k v ix c)).
Proof. intros [Hg (H1 & H2 & H3)]. split; [exact Hg|]. unfold sized. cbn [llow lcount lhigh]. split; [destruct H1; [left; auto|right; lia]|]. split; [lia|intros _; lia]. Qed.
Lemma code_fed f o : no_delete o -> keeps fed (code f o) (pageq fed).
Proof. intros Ho. apply code_pages; [apply fed_closed|]. destruct o; simpl in *; auto; try tauto; intros ix c; apply fed_ins. Qed.
Lemma fed_init : heapok fed minit.
Proof. intros [|[q|q|]] n; simpl; try discriminate; intros E; injection E as <-; simpl; auto. split; [exact I|]. unfold sized. cbn [llow lcount lhigh length]. split; [left; reflexivity|]. split; [lia|congruence]. Qed.

(** * Executions *)
Lemma fed_exec tr ss s : exec tr ss s -> never_deletes tr ->
  heapok fed (sm s) /\ (forall t o p, running s t = Some (o, p) -> keeps fed p (pageq fed)) /\
  forall t o r, In (ERet t o r) tr -> pageq fed r.
Proof.
  intros Hx. induction Hx as [|tr ss s e s' Hx IH Hs]; intros Hd.
  - split; [exact fed_init|]. split; [discriminate|]. intros t o r [].
  - destruct IH as (HT & Hr & Hq). { intros t o Ht. apply (Hd t o). right. exact Ht. }
    inversion Hs as [s1 t o fuel Hn|s1 t o p Hp Hnr Hne|s1 t o r Hp]; subst; simpl.
    + split; [exact HT|]. split; [|intros u o' r' [H|H]; [discriminate|eauto]]. intros u o' p' Hu. rewrite running_set in Hu. destruct (u =? t); [injection Hu as <- <-|eauto].
      apply code_fed. apply (Hd t o). left. reflexivity.
    + destruct (keeps_step _ p _ (sm s) HT (Hr _ _ _ Hp)) as [H1 H2]. split; [exact H1|]. split; [|intros u o' r' [H|H]; [discriminate|eauto]].
      intros u o' p' Hu. rewrite running_set in Hu. destruct (u =? t); [injection Hu as <- <-; exact H2|eauto].
    + split; [exact HT|]. split; [intros u o' p' Hu; rewrite running_set in Hu; destruct (u =? t); [discriminate|eauto]|].
      intros u o' r' [H|H]; [|eauto]. injection H as <- <- <-. exact (Hr _ _ _ Hp).
Qed.
Lemma grown_no_merge c : grown c -> lwfw c -> no_merge c.
Proof.
  induction c as [low items high|k v ix c IH|k v ix c IH|sk sib n c IH|i c IH|mk i r IHr c IHc]; cbn [grown lwfw no_merge].
  - auto.
  - intros Hg (Hw & _). auto.
  - tauto.
  - destruct c; cbn [no_merge]; try tauto.
  - tauto.
  - intros (_ & _ & Hn) (_ & _ & E & _). rewrite Hn in E. discriminate.
Qed.
Lemma no_merge_clean c : no_merge c -> clean c.
Proof. induction c; simpl; auto; tauto. Qed.
Lemma grown_live c : grown c -> lwfw (lbody c) -> no_merge c.
Proof. intros Hg Hw. destruct c; simpl in Hw; try (apply grown_no_merge; auto; fail). simpl in *. apply grown_no_merge; tauto. Qed.
Lemma heapok_node Q m i n : heapok Q m -> node_of m i = Some n -> Q n.
Proof. intros H E. apply node_of_get in E as (p & E). exact (get_ok Q m i (p, n) H E). Qed.
Lemma fed_merge tr ss s i c : exec tr ss s -> never_deletes tr -> reach (sm s) i -> node_of (sm s) i = Some (NLeaf c) -> no_merge c.
Proof.
  intros Hx Hd Hr En. destruct (exec_wok _ _ _ Hx) as (w & E & Hw). rewrite <- E in *.
  destruct (TreeInv.reach_leaf w i Hw Hr) as (_ & c' & Hl & Hb). unfold leaf in Hl. rewrite En in Hl. injection Hl as <-.
  apply grown_live; [|exact Hb]. destruct (fed_exec _ _ _ Hx Hd) as (H & _). rewrite <- E in H. apply (heapok_node _ _ _ _ H En).
Qed.
Lemma exec_past tr ss s : exec tr ss s -> forall s', In s' ss -> exists tr1 tr2 ss', tr = tr1 ++ tr2 /\ exec tr2 ss' s'.
Proof.
  induction 1 as [|tr ss s e s' H IH Hs]; intros x [<-|Hx].
  - exists [], [], [sinit]. split; [reflexivity|constructor].
  - destruct Hx.
  - exists [], (e :: tr), (s' :: ss). split; [reflexivity|econstructor; eauto].
  - destruct (IH x Hx) as (tr1 & tr2 & ss' & -> & Hx'). exists (e :: tr1), tr2, ss'. auto.
Qed.
Lemma fed_clean tr ss s : exec tr ss s -> never_deletes tr -> forall s', In s' ss -> leaves_clean (sm s').
Proof.
  intros Hx Hd s' Hs. destruct (exec_past _ _ _ Hx _ Hs) as (tr1 & tr2 & ss' & -> & Hx'). intros i c Hr En.
  apply no_merge_clean. eapply fed_merge; eauto. intros t o H. apply (Hd t o), in_or_app. auto.
Qed.
(** * Sizes *)
Definition inr (low : option K) (high : option (K * nat)) (x : K * V) : bool :=
  match low with None => true | Some l => negb (klt (fst x) l) end && match high with None => true | Some (h, _) => klt (fst x) h end.
Lemma inr_ok low high x v : inr low high (x, v) = true <-> above low x /\ below high x.
Proof.
  unfold inr. rewrite andb_true_iff. simpl. destruct low as [l|], high as [[h n]|]; simpl; rewrite ?negb_true_iff; tauto.
Qed.
Lemma fed_size tr ss s i c : exec tr ss s -> never_deletes tr -> reach (sm s) i -> node_of (sm s) i = Some (NLeaf c) ->
  forall items, pairs_of (contents (sm s)) (llow c) (lhigh c) items ->
    (llow c = None \/ LEAF_SIZE_LOWER < length items) /\ (lhigh c = None \/ items <> []).
Proof.
  intros Hx Hd Hr En items [Hnd Hi]. destruct (fed_exec _ _ _ Hx Hd) as (H & _). apply (fun h => heapok_node _ _ _ _ h En) in H. destruct H as [_ (S1 & S2 & S3)].
  destruct (exec_wok _ _ _ Hx) as (w & E & Hw). rewrite <- E in *.
  destruct (TreeInv.reach_leaf w i Hw Hr) as (_ & c' & Hl & Hb). unfold leaf in Hl. rewrite En in Hl. injection Hl as <-.
  assert (Hc : lcount c = Z.of_nat (length items)).
  { assert (Hi' : forall k v, In (k, v) items <-> in_range c k /\ lmem c k v).
    { intros k v. rewrite Hi. unfold in_range. split.
      - intros (A & B & C). split; [split; auto|]. apply (contents_leaf w i c k v Hw Hr En); [split; auto|exact C].
      - intros ((A & B) & C). split; [exact A|]. split; [exact B|]. apply (contents_leaf w i c k v Hw Hr En); [split; auto|exact C]. }
    destruct c as [low its high|k v ix c|k v ix c|sk sib n c|j c|mk j r c]; cbn [lbody] in Hb; try exact (lcountw_card _ Hb items Hnd Hi'). }
  rewrite Hc in *. split.
  - destruct S1 as [S1|S1]; [left; exact S1|right; lia].
  - destruct (lhigh c); [right; intros ->; simpl in S3; specialize (S3 ltac:(discriminate)); lia|left; reflexivity].
Qed.
Lemma flat_length {A B} (f : A -> list B) n l : (forall x, In x l -> n <= length (f x)) -> n * length l <= length (flat_map f l).
Proof.
  induction l as [|a l IH]; intros H; simpl; [lia|]. rewrite app_length. specialize (IH (fun x Hx => H x (or_intror Hx))). specialize (H a (or_introl eq_refl)). lia.
Qed.
Lemma flat_nodup {A B} (f : A -> list B) l : NoDup l -> (forall x, In x l -> NoDup (f x)) ->
  (forall x y b, In x l -> In y l -> In b (f x) -> In b (f y) -> x = y) -> NoDup (flat_map f l).
Proof.
  induction l as [|a l IH]; intros Hn Hf Hd; simpl; [constructor|]. inversion Hn as [|? ? Ha Hl]; subst.
  apply NoDup_app_intro.
  - apply Hf. left. reflexivity.
  - apply IH; [exact Hl|intros x Hx; apply Hf; right; exact Hx|]. intros x y b Hx Hy. apply Hd; right; assumption.
  - intros b Hb Hb'. apply in_flat_map in Hb' as (y & Hy & Hb'). apply Ha. rewrite (Hd a y b (or_introl eq_refl) (or_intror Hy) Hb Hb'). exact Hy.
Qed.
Definition page_low (m : mem) (i : nat) : option K := match node_of m i with Some n => nlow n | None => None end.
Definition page_items (m : mem) (all : list (K * V)) (i : nat) : list (K * V) :=
  match node_of m i with Some (NLeaf c) => filter (inr (llow c) (lhigh c)) all | _ => [] end.
Lemma fed_space tr ss s ids all : exec tr ss s -> never_deletes tr -> leaves (sm s) ids -> pairs_of (contents (sm s)) None None all ->
  S LEAF_SIZE_LOWER * (length ids - 1) <= length all.
Proof.
  intros Hx Hd [Hn Hr] [Hnd Hall]. destruct (exec_wok _ _ _ Hx) as (w & E & Hw).
  assert (Hleaf : forall i, In i ids -> exists c, node_of (sm s) i = Some (NLeaf c)).
  { intros i Hi. apply Hr in Hi. rewrite <- E in Hi |- *. destruct (TreeInv.reach_leaf w i Hw Hi) as (_ & c & Hc & _). exists c. exact Hc. }
  set (low i := match page_low (sm s) i with None => true | Some _ => false end).
  set (big := filter (fun i => negb (low i)) ids).
  assert (Hlow : length (filter low ids) <= 1).
  { assert (Hu : forall i j, In i (filter low ids) -> In j (filter low ids) -> i = j).
    { intros i j Hi Hj. apply filter_In in Hi as [Hi Li]. apply filter_In in Hj as [Hj Lj]. destruct (Hleaf i Hi) as [a Ha]. destruct (Hleaf j Hj) as [b Hb].
      unfold low, page_low in Li, Lj. rewrite Ha in Li. rewrite Hb in Lj. simpl in Li, Lj. destruct (llow a) eqn:Ea; [discriminate|]. destruct (llow b) eqn:Eb; [discriminate|].
      apply Hr in Hi. apply Hr in Hj. rewrite <- E in *. destruct (k_uniq w Hw i j a b Hi Hj Ha Hb) as [F|[F|F]]; [exact F| |]; unfold TreeInv.before in F.
      - rewrite Eb in F. destruct (lhigh a) as [[? ?]|]; destruct F.
      - rewrite Ea in F. destruct (lhigh b) as [[? ?]|]; destruct F. }
    pose proof (NoDup_filter low _ Hn) as Hf. destruct (filter low ids) as [|a [|b l]]; simpl; try lia.
    exfalso. inversion Hf as [|? ? Ha _]; subst. apply Ha. left. apply Hu; simpl; auto. }
  assert (Hsum : length (filter low ids) + length big = length ids).
  { unfold big. clear. induction ids as [|a l IH]; simpl; auto. destruct (low a); simpl; lia. }
  assert (Hb : S LEAF_SIZE_LOWER * length big <= length (flat_map (page_items (sm s) all) big)).
  { apply flat_length. intros i Hi. apply filter_In in Hi as [Hi Li]. destruct (Hleaf i Hi) as [c Hc]. unfold page_items. rewrite Hc.
    destruct (fed_size tr ss s i c Hx Hd (Hr i Hi) Hc (filter (inr (llow c) (lhigh c)) all)) as [[F|F] _].
    - split; [apply NoDup_filter; exact Hnd|]. intros k v. rewrite filter_In, inr_ok, Hall. simpl. tauto.
    - unfold low, page_low in Li. rewrite Hc in Li. simpl in Li. rewrite F in Li. discriminate.
    - exact F. }
  assert (Hi : length (flat_map (page_items (sm s) all) big) <= length all).
  { apply NoDup_incl_length.
    - apply flat_nodup.
      + apply NoDup_filter. exact Hn.
      + intros i _. unfold page_items. destruct (node_of (sm s) i) as [[c|c]|]; try constructor. apply NoDup_filter. exact Hnd.
      + intros i j [k v] Hi Hj Bi Bj. apply filter_In in Hi as [Hi _]. apply filter_In in Hj as [Hj _]. destruct (Hleaf i Hi) as [a Ha]. destruct (Hleaf j Hj) as [b Hb'].
        unfold page_items in Bi, Bj. rewrite Ha in Bi. rewrite Hb' in Bj. apply filter_In in Bi as [_ Bi]. apply filter_In in Bj as [_ Bj]. apply inr_ok in Bi. apply inr_ok in Bj.
        apply Hr in Hi. apply Hr in Hj. rewrite <- E in *. destruct (k_uniq w Hw i j a b Hi Hj Ha Hb') as [F|[F|F]]; [exact F| |]; exfalso; unfold TreeInv.before in F.
        * destruct (lhigh a) as [[h n]|]; [|exact F]. destruct (llow b) as [l|]; [|exact F]. simpl in Bi, Bj. destruct Bi as [_ Bi], Bj as [Bj _]. order.
        * destruct (lhigh b) as [[h n]|]; [|exact F]. destruct (llow a) as [l|]; [|exact F]. simpl in Bi, Bj. destruct Bj as [_ Bj], Bi as [Bi _]. order.
    - intros x Hx'. apply in_flat_map in Hx' as (i & _ & Hx'). unfold page_items in Hx'. destruct (node_of (sm s) i) as [[c|c]|]; try destruct Hx'. apply filter_In in Hx'. apply Hx'. }
  assert (length ids - 1 <= length big) by lia.
  transitivity (S LEAF_SIZE_LOWER * length big); [apply Nat.mul_le_mono_l; assumption|lia].
Qed.
(** Pages given to iterators. *)
Lemma fed_returned tr ss s t o low items high : exec tr ss s -> never_deletes tr -> In (ERet t o (RPage low items high)) tr ->
  (low = None \/ LEAF_SIZE_LOWER < length items) /\ (high = None \/ items <> []).
Proof.
  intros Hx Hd Hi. destruct (fed_exec _ _ _ Hx Hd) as (_ & _ & H). destruct (H _ _ _ Hi) as [_ (S1 & _ & S3)]. cbn [llow lhigh lcount] in *. split.
  - destruct S1 as [S1|S1]; [left; exact S1|right; lia].
  - destruct high; [right; intros ->; simpl in S3; specialize (S3 ltac:(discriminate)); lia|left; reflexivity].
Qed.

(** * One thread *)
Lemma seqrun_fed l m : seqrun l m -> (forall o, In o (map fst l) -> no_delete o) -> heapok fed m /\ forall o r, In (o, r) l -> pageq fed r.
Proof.
  induction 1 as [|l m fuel o m' r Hq IH E]; intros Hn.
  - split; [exact fed_init|]. intros o r [].
  - destruct IH as [Hm Hl]. { intros o' Ho. apply Hn. right. exact Ho. }
    destruct (keeps_run _ _ (pageq fed) m m' (Ok r) Hm (code_fed fuel o (Hn o (or_introl eq_refl))) E) as [H1 H2].
    split; [exact H1|]. intros o' r' [F|F]; [injection F as <- <-; exact H2|eauto].
Qed.

(** * Begin() *)
Lemma page_begin low items high : pageq fed (RPage low items high) ->
  let it := {| i_low := low; i_items := items; i_high := high; i_pos := 1 |} in is_end it = true \/ exists x, deref it = Ok x.
Proof.
  intros [_ (_ & _ & H3)] it. unfold it, is_end, at_end, deref. cbn [i_low i_items i_high i_pos]. cbn [lhigh lcount] in H3. destruct items as [|x items]; [|right; exists x; reflexivity].
  left. destruct high; [|reflexivity]. specialize (H3 ltac:(discriminate)). simpl in H3. lia.
Qed.
Lemma begin_readable tr ss s log it : exec tr ss s -> never_deletes tr -> answered tr log -> follows begin_first log it ->
  is_end it = true \/ exists x, deref it = Ok x.
Proof.
  intros Hx Hd Ha H. unfold begin_first in H. inversion H as [|o c r l' a Hf]; subst. destruct (Ha OpFirst r (or_introl eq_refl)) as [t Ht].
  destruct (fed_exec _ _ _ Hx Hd) as (_ & _ & Hq). specialize (Hq _ _ _ Ht). destruct r as [b0|b0 s0|vs|low items high]; try (inversion Hf; fail). inversion Hf; subst. apply page_begin. exact Hq.
Qed.
Lemma begin_readable_alone l m f it m' : seqrun l m -> (forall o, In o (map fst l) -> no_delete o) -> irun m f begin_first = (m', Ok it) ->
  is_end it = true \/ exists x, deref it = Ok x.
Proof.
  intros Hq Hn E. unfold begin_first in E. cbn [irun] in E. destruct (prun m (code f OpFirst)) as [m1 [r|e]] eqn:Er; [|discriminate].
  assert (Hq' : seqrun ((OpFirst, r) :: l) m1) by (econstructor; eauto).
  destruct (seqrun_fed _ _ Hq') as [_ H]. { intros o [<-|Ho]; [exact I|auto]. } specialize (H _ _ (or_introl eq_refl)).
  destruct r as [b0|b0 s0|vs|low items high]; try discriminate. cbn [irun] in E. injection E as <- <-. apply page_begin. exact H.
Qed.
Lemma readers_never s0 tr tr' : readers_only s0 tr' -> never_deletes tr -> never_deletes (tr' ++ tr).
Proof.
  intros Hr Hd t o H. apply in_app_or in H as [H|H]; [|eauto]. assert (Ho : reads o) by (apply Hr; right; exists t; exact H). destruct o; simpl in *; auto.
Qed.
End Fill.

(** * States on the way *)
Section Way.
Context {P : Params}.
Lemma later_past s0 tr ss s : later s0 tr ss s -> forall s1, In s1 ss -> exists a b ss1, tr = a ++ b /\ later s0 b ss1 s1.
Proof.
  induction 1 as [|tr ss s e s' Hl IH Hs]; intros x [<-|Hi].
  - exists [], [], [s0]. split; [reflexivity|constructor].
  - destruct Hi.
  - exists [], (e :: tr), (s' :: ss). split; [reflexivity|econstructor; eauto].
  - destruct (IH x Hi) as (a & b & ss1 & -> & Hx). exists (e :: a), b, ss1. auto.
Qed.
Lemma fed_clean_later tr ss s0 tr' ss' s : exec tr ss s0 -> later s0 tr' ss' s -> never_deletes (tr' ++ tr) -> forall s1, In s1 ss' -> leaves_clean (sm s1).
Proof.
  intros Hx Hl Hd s1 Hi. destruct (later_past _ _ _ _ Hl _ Hi) as (a & b & ss1 & -> & Hb). destruct (exec_later _ _ _ Hx _ _ _ Hb) as (ss2 & Hx2).
  apply (fed_clean _ _ _ Hx2); [|inversion Hx2; left; reflexivity]. intros t o H. apply (Hd t o). rewrite <- app_assoc. apply in_or_app. right. exact H.
Qed.
End Way.
